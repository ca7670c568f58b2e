(** Model of the access to the components of entities: the named members and operator[] of the types
    of public/gal/vga.hpp, pga.hpp, pga2.hpp and cga.hpp, their constructors from components, and the
    mutable entity of public/gal/entity.hpp.

    The types are unions of an array and a struct of members of the same type. The members are taken
    to share the storage of the array in their order, as all supported compilers lay them out (the
    standard does not define the value of the member that was not written last). *)
From Coq Require Import ZArith NArith List Bool Arith Reals String.
From Verif Require Import Base Model_Numeric Model_Blade Model_MV Model_Product Model_Expr Model_Dfa Model_Engine Model_Entity.
Import ListNotations.
Local Open Scope nat_scope.

(** ** operator[], size and members *)

(** T const& operator[](size_t), e.g. vga.hpp:134-137: the index is not checked by the code *)
Definition at_index (d : list R) (k : nat) : res R := get d k.
(** T& operator[](size_t) and an assignment to it, e.g. vga.hpp:139-142 *)
Definition put_index (d : list R) (k : nat) (t : R) : res (list R) := set d k t.
(** the members of a type, in order; a member may have several names, e.g. vga.hpp:81-100 *)
Definition members := list (list string).
(** the cell of a member, e.g. vga.hpp:81-100 *)
Fixpoint member_index (ns : members) (n : string) : option nat :=
  match ns with
  | [] => None
  | l :: ns' => if existsb (String.eqb n) l then Some 0 else match member_index ns' n with Some k => Some (S k) | None => None end
  end.
(** reading a member, e.g. vga.hpp:128; a name that is not a member does not compile *)
Definition read_member (ns : members) (d : list R) (n : string) : res R :=
  match member_index ns n with Some k => get d k | None => Err IllFormed end.
(** assigning to a member, e.g. vga.hpp:129 *)
Definition write_member (ns : members) (d : list R) (n : string) (t : R) : res (list R) :=
  match member_index ns n with Some k => set d k t | None => Err IllFormed end.
(** a constructor T(a, b, ...) : n1{a}, n2{b}, ..., e.g. vga.hpp:115-119: every member is initialised *)
Fixpoint construct (ns : members) (d : list R) (l : list (string * R)) : res (list R) :=
  match l with [] => Ok d | (n, t) :: l' => d' <- write_member ns d n t;; construct ns d' l' end.

(** ** The types *)
Local Open Scope string_scope.
(** vga::vector, vga.hpp:81-100, and cga::point, cga.hpp:90-109 *)
Definition xyz_uvw : members := [["x"; "u"]; ["y"; "v"]; ["z"; "w"]].
(** vga::point, vga.hpp:183-188, pga::vector and pga2::vector, pga.hpp:396-401, pga2.hpp:203-208 *)
Definition xyz : members := [["x"]; ["y"]; ["z"]].
(** vga::rotor and pga::rotor, vga.hpp:238-245, pga.hpp:132-139 *)
Definition rotor_members : members := [["cos_theta"]; ["sin_theta"]; ["x"]; ["y"]; ["z"]].
(** pga::translator and pga::plane, pga.hpp:207-213, 339-345 *)
Definition dxyz : members := [["d"]; ["x"]; ["y"]; ["z"]].
(** pga::line, pga.hpp:467-475 *)
Definition line_members : members := [["dx"]; ["dy"]; ["dz"]; ["mx"]; ["my"]; ["mz"]].
(** pga2::line, pga2.hpp:79-84 *)
Definition dxy : members := [["d"]; ["x"]; ["y"]].
(** pga2::point, pga2.hpp:129-144 *)
Definition xy : members := [["x"; "u"; "s"]; ["y"; "v"; "t"]].

(** vga::vector(a, b, c) and cga::point(a, b, c), vga.hpp:115-119, cga.hpp:111-115 *)
Definition vga_vector_new (raw : list R) (a b c : R) : res (list R) := construct xyz_uvw raw [("x", a); ("y", b); ("z", c)].
(** vga::point(x, y, z), pga::vector and pga2::vector, vga.hpp:190-194, pga.hpp:429-433, pga2.hpp:236-240 *)
Definition xyz_new (raw : list R) (x y z : R) : res (list R) := construct xyz raw [("x", x); ("y", y); ("z", z)].
(** pga::translator(d, x, y, z) and pga::plane(d, x, y, z), pga.hpp:215-220, 360-365 *)
Definition dxyz_new (raw : list R) (d x y z : R) : res (list R) := construct dxyz raw [("d", d); ("x", x); ("y", y); ("z", z)].
(** pga::line(dx, dy, dz, mx, my, mz), pga.hpp:511-518 *)
Definition line_new (raw : list R) (dx dy dz mx my mz : R) : res (list R) :=
  construct line_members raw [("dx", dx); ("dy", dy); ("dz", dz); ("mx", mx); ("my", my); ("mz", mz)].
(** pga2::line(d, x, y), pga2.hpp:99-103 *)
Definition dxy_new (raw : list R) (d x y : R) : res (list R) := construct dxy raw [("d", d); ("x", x); ("y", y)].
(** pga2::point(x, y), pga2.hpp:169-172 *)
Definition xy_new (raw : list R) (x y : R) : res (list R) := construct xy raw [("x", x); ("y", y)].
(** size(), e.g. vga.hpp:110-113, 177-180, pga.hpp:126-129, 195-198, 282-285, 355-358, 424-427, 506-509 *)
Definition sizes : list (string * (members * nat)) :=
  [("vga::vector", (xyz_uvw, 3)); ("vga::point", (xyz, 3)); ("vga::rotor", (rotor_members, 5)); ("pga::rotor", (rotor_members, 5)); ("pga::translator", (dxyz, 4));
   ("pga::plane", (dxyz, 4)); ("pga::vector", (xyz, 3)); ("pga::line", (line_members, 6)); ("pga2::line", (dxy, 3)); ("pga2::point", (xy, 2)); ("pga2::vector", (xyz, 3)); ("cga::point", (xyz_uvw, 3))]%string.
Local Close Scope string_scope.

(** ** entity.hpp *)

(** assigning through the pointer returned by select(e), entity.hpp:101-105; the zero entity and blades
    that are not stored give nullptr, and assigning through it is an error *)
Definition select_put (dim : N) (x : entity) (e : N) (t : R) : res entity :=
  p <- select_ptr dim x e;;
  match p with
  | None => Err OutOfBounds
  | Some k => d <- set (map snd x) k t;; Ok (combine (map fst x) d)
  end.
(** operator[] of an entity, entity.hpp:122-125; of the zero entity, entity.hpp:181-184 *)
Definition entity_at (x : entity) (k : nat) : res R := match x with [] => Ok 0%R | _ => get (map snd x) k end.
(** assigning to operator[], entity.hpp:127-130 *)
Definition entity_put (x : entity) (k : nat) (t : R) : res entity := d <- set (map snd x) k t;; Ok (combine (map fst x) d).
(** for (auto& c : x), entity.hpp:112-120: begin and end of the array, of the zero entity nothing,
    entity.hpp:171-179 *)
Definition entity_visit (x : entity) : list R := map snd x.
(** operator[] of a scalar, entity.hpp:219-227: the index is ignored *)
Definition scalar_at (value : R) (k : nat) : R := value.
