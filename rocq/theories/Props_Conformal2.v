(** C61, continued: the sphere through four points. *)
From Coq Require Import ZArith NArith List Bool Arith Reals Lia Lra.
From Verif Require Import Base Model_Numeric Model_Blade Model_MV Model_Product Model_Expr Model_Dfa Model_Reshape Model_Engine Model_Entity Model_Compute Model_Geometry
  Spec_Numeric Spec_Clifford Spec_Basis Spec_MV Spec_Expr Spec_Build Spec_Engine Spec_Entity Spec_Geometry.
From Verif Require Import Proof_Numeric Proof_Motion Props_Conformal.
Import ListNotations.
Local Open Scope list_scope.
Local Open Scope R_scope.

(** the exterior product of a stored entity and a point *)
Definition with_point (md : mode) (e : entity) (p : vec) : res (list entity) :=
  compute_one md cga_m true [construct_ie (map fst e); cga_point_ie] [map snd e; coords p] (UEp (UIn 0) (UIn 1)).
(** a plane or sphere through p, and the points q, r, s: zero for x on it *)
Definition through (p q r s x : vec) : R :=
  let e := vminus q p in let f := vminus r p in let g := vminus s p in let h := vminus x p in
  dot h h * det3 e f g - dot e e * det3 h f g - dot f f * det3 e h g - dot g g * det3 e f h.

(** the exterior product of five points, one after another *)
Theorem C61_five_points md p q r s : exists e2 e3 e4,
  compute_one md cga_m true [cga_point_ie; cga_point_ie] [coords p; coords q] (UEp (UIn 0) (UIn 1)) = Ok [e2] /\ with_point md e2 r = Ok [e3] /\ with_point md e3 s = Ok [e4] /\
  forall x, exists e5, with_point md e4 x = Ok [e5] /\ map fst e5 = [31]%N /\ map snd e5 = [- through p q r s x / 2].
Proof.
  destruct p as [x y z], q as [a b c], r as [u v w], s as [l m n]. do 3 eexists. do 3 (split; [destruct md; vm_compute; reflexivity|]). intros [f g h].
  eexists. split; [destruct md; vm_compute; reflexivity|]. split; [reflexivity|]. cbn [map snd]. change (R1 + R1) with 2. change R1 with 1.
  unfold through, det3, cross, dot, vminus. cbn [cx cy cz]. f_equal. field.
Qed.
Print Assumptions C61_five_points.
(** what it says: if the first four points are not in a plane there is one sphere through them, and the product vanishes exactly on it ... *)
Theorem C61_sphere_through p q r s : det3 (vminus q p) (vminus r p) (vminus s p) <> 0 ->
  exists c r2, dist2 p c = r2 /\ dist2 q c = r2 /\ dist2 r c = r2 /\ dist2 s c = r2 /\ (forall x, through p q r s x = 0 <-> dist2 x c = r2) /\
  forall c', dist2 q c' = dist2 p c' -> dist2 r c' = dist2 p c' -> dist2 s c' = dist2 p c' -> c' = c.
Proof.
  intros D. set (e := vminus q p) in *. set (f := vminus r p) in *. set (g := vminus s p) in *.
  set (W := vplus (vtimes (dot e e) (cross f g)) (vplus (vtimes (dot f f) (cross g e)) (vtimes (dot g g) (cross e f)))).
  set (o := vtimes (/ (2 * det3 e f g)) W).
  assert (T : forall x, through p q r s x = det3 e f g * (dist2 x (vplus p o) - dot o o)).
  { intros x. unfold through. fold e f g. clearbody e f g. unfold dist2, o, W. destruct x as [x1 x2 x3], p as [p1 p2 p3], e as [e1 e2 e3], f as [f1 f2 f3], g as [g1 g2 g3].
    unfold det3, cross, dot, vminus, vplus, vtimes in *. cbn [cx cy cz] in *. field. exact D. }
  assert (Z : forall x, through p q r s x = 0 <-> dist2 x (vplus p o) = dot o o).
  { intros x. rewrite T. split; intros H; [apply Rmult_integral in H; destruct H; [contradiction|lra]|rewrite H; ring]. }
  exists (vplus p o), (dot o o).
  assert (N0 : through p q r s p = 0 /\ through p q r s q = 0 /\ through p q r s r = 0 /\ through p q r s s = 0).
  { destruct p as [p1 p2 p3], q as [e1 e2 e3], r as [f1 f2 f3], s as [g1 g2 g3]. unfold through, det3, cross, dot, vminus. cbn [cx cy cz]. repeat split; ring. }
  destruct N0 as (A & B & C & E). rewrite Z in A, B, C, E. do 4 (split; [assumption|]). split; [exact Z|].
  intros [c1 c2 c3] H1 H2 H3. clear T Z. unfold o, W. assert (K : forall v, dist2 v (mkvec c1 c2 c3) = dist2 p (mkvec c1 c2 c3) -> 2 * dot (vminus v p) (vminus (mkvec c1 c2 c3) p) = dot (vminus v p) (vminus v p)).
  { intros [v1 v2 v3]. destruct p as [p1 p2 p3]. unfold dist2, dot, vminus. cbn [cx cy cz]. intros. lra. }
  apply K in H1, H2, H3. fold e in H1. fold f in H2. fold g in H3. clear K A B C E. clearbody e f g. clear W o. destruct p as [p1 p2 p3], e as [e1 e2 e3], f as [f1 f2 f3], g as [g1 g2 g3].
  rewrite <- H1, <- H2, <- H3. clear H1 H2 H3. unfold det3, cross, dot, vminus, vplus, vtimes in *. cbn [cx cy cz] in *. f_equal; field; exact D.
Qed.
Print Assumptions C61_sphere_through.
Ltac vecs := repeat match goal with v : vec |- _ => let a := fresh "u" in let b := fresh "u" in let c := fresh "u" in destruct v as [a b c] end.
(** ... and if they are in a plane, but three of them are not on a line and the four are not on a circle, it vanishes exactly on the plane *)
Theorem C61_plane_through p q r s : let n := cross (vminus q p) (vminus r p) in dot n (vminus s p) = 0 -> n <> mkvec 0 0 0 ->
  exists k, (forall x, dot n n * through p q r s x = k * dot n (vminus x p)) /\
    (k = 0 <-> exists c, dist2 q c = dist2 p c /\ dist2 r c = dist2 p c /\ dist2 s c = dist2 p c).
Proof.
  intros n G NZ. set (e := vminus q p) in *. set (f := vminus r p) in *. set (g := vminus s p) in *. set (a := dot (cross g f) n). set (b := dot (cross e g) n).
  assert (NN : dot n n <> 0).
  { intros H. apply NZ. clear - H. clearbody n. destruct n as [n1 n2 n3]. unfold dot in H. cbn [cx cy cz] in H. assert (n1 = 0 /\ n2 = 0 /\ n3 = 0) as (-> & -> & ->); [|reflexivity].
    pose proof (Rle_0_sqr n1). pose proof (Rle_0_sqr n2). pose proof (Rle_0_sqr n3). unfold Rsqr in *. repeat split; apply Rsqr_0_uniq; unfold Rsqr; lra. }
  assert (D : vtimes (dot n n) g = vplus (vtimes a e) (vtimes b f)).
  { transitivity (vplus (vplus (vtimes a e) (vtimes b f)) (vtimes (dot n g) n)); [|rewrite G; clearbody a b e f; vecs; unfold vplus, vtimes; cbn [cx cy cz]; f_equal; ring].
    unfold a, b, n. clear. clearbody e f g. destruct e as [e1 e2 e3], f as [f1 f2 f3], g as [g1 g2 g3]. unfold cross, dot, vplus, vtimes. cbn [cx cy cz]. f_equal; ring. }
  exists (dot e e * a + dot f f * b - dot g g * dot n n). split.
  - intros x. unfold through. fold e f g. set (h := vminus x p).
    assert (D0 : det3 e f g = 0) by (rewrite <- G; unfold n, det3; clearbody e f g; vecs; unfold cross, dot; cbn [cx cy cz]; ring).
    assert (D1 : dot n n * det3 h f g = - a * dot n h).
    { transitivity (det3 h f (vtimes (dot n n) g)); [clearbody n h f g; vecs; unfold det3, cross, dot, vtimes; cbn [cx cy cz]; ring|]. rewrite D. clearbody a b. unfold n. clearbody e f h. vecs. unfold det3, cross, dot, vplus, vtimes. cbn [cx cy cz]. ring. }
    assert (D2 : dot n n * det3 e h g = - b * dot n h).
    { transitivity (det3 e h (vtimes (dot n n) g)); [clearbody n h e g; vecs; unfold det3, cross, dot, vtimes; cbn [cx cy cz]; ring|]. rewrite D. clearbody a b. unfold n. clearbody e f h. vecs. unfold det3, cross, dot, vplus, vtimes. cbn [cx cy cz]. ring. }
    assert (D3 : det3 e f h = dot n h) by (unfold n, det3; clearbody e f h; vecs; unfold cross, dot; cbn [cx cy cz]; ring).
    rewrite D0, D3. transitivity (- dot e e * (dot n n * det3 h f g) - dot f f * (dot n n * det3 e h g) - dot n n * dot g g * dot n h); [ring|]. rewrite D1, D2. ring.
  - assert (K : forall v c, dist2 v c = dist2 p c <-> 2 * dot (vminus v p) (vminus c p) = dot (vminus v p) (vminus v p)).
    { intros [v1 v2 v3] [c1 c2 c3]. destruct p as [p1 p2 p3]. unfold dist2, dot, vminus. cbn [cx cy cz]. split; intros; lra. }
    assert (L : forall o, dot n n * (2 * dot g o) = a * (2 * dot e o) + b * (2 * dot f o)).
    { intros o. transitivity (2 * dot (vtimes (dot n n) g) o); [clearbody n g; vecs; unfold dot, vtimes; cbn [cx cy cz]; ring|]. rewrite D. clearbody a b e f. vecs. unfold dot, vplus, vtimes. cbn [cx cy cz]. ring. }
    split.
    + intros K0. set (o := vtimes (/ (2 * dot n n)) (vplus (vtimes (dot e e) (cross f n)) (vtimes (dot f f) (cross n e)))). exists (vplus p o). rewrite !K. fold e f g.
      replace (vminus (vplus p o) p) with o by (clearbody o; vecs; unfold vminus, vplus; cbn [cx cy cz]; f_equal; ring).
      assert (E : 2 * dot e o = dot e e).
      { transitivity (dot e e * dot n n / dot n n); [|field; exact NN]. unfold o. replace (dot e e * dot n n) with (dot e e * dot e (cross f n)) by (unfold n; clear; clearbody e f; vecs; unfold dot, cross; cbn [cx cy cz]; ring).
        clear - NN. clearbody n e f. vecs. unfold dot, cross, vtimes, vplus in *. cbn [cx cy cz] in *. field. exact NN. }
      assert (F : 2 * dot f o = dot f f).
      { transitivity (dot f f * dot n n / dot n n); [|field; exact NN]. unfold o. replace (dot f f * dot n n) with (dot f f * dot f (cross n e)) by (unfold n; clear; clearbody e f; vecs; unfold dot, cross; cbn [cx cy cz]; ring).
        clear - NN. clearbody n e f. vecs. unfold dot, cross, vtimes, vplus in *. cbn [cx cy cz] in *. field. exact NN. }
      split; [exact E|]. split; [exact F|]. apply (Rmult_eq_reg_l (dot n n)); [|exact NN]. rewrite L, E, F. lra.
    + intros (c & E & F & H). rewrite !K in *. fold e in E. fold f in F. fold g in H. specialize (L (vminus c p)). rewrite E, F, H in L. lra.
Qed.
Print Assumptions C61_plane_through.
Example C61_through_ex : det3 (vminus (mkvec 1 0 0) (mkvec 0 0 0)) (vminus (mkvec 0 1 0) (mkvec 0 0 0)) (vminus (mkvec 0 0 1) (mkvec 0 0 0)) <> 0 /\
  through (mkvec 0 0 0) (mkvec 1 0 0) (mkvec 0 1 0) (mkvec 0 0 1) (mkvec 1 1 1) = 0 /\
  cross (vminus (mkvec 1 0 0) (mkvec 0 0 0)) (vminus (mkvec 0 1 0) (mkvec 0 0 0)) <> mkvec 0 0 0.
Proof. unfold through, det3, cross, dot, vminus. cbn [cx cy cz]. split; [lra|]. split; [ring|]. intros H. apply (f_equal cz) in H. cbn [cz] in H. lra. Qed.
