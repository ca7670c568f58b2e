-Q theories Verif
theories/Base.v
theories/Model_Access.v
theories/Model_Bench.v
theories/Model_Blade.v
theories/Model_Compute.v
theories/Model_Crc.v
theories/Model_Dfa.v
theories/Model_Engine.v
theories/Model_Entity.v
theories/Model_Evaluate.v
theories/Model_Expr.v
theories/Model_Float.v
theories/Model_FloatGeo.v
theories/Model_Format.v
theories/Model_Geometry.v
theories/Model_Inputs.v
theories/Model_Iter.v
theories/Model_Iter2.v
theories/Model_MV.v
theories/Model_Numeric.v
theories/Model_Product.v
theories/Model_Reshape.v
theories/Model_Sort.v
theories/Model_Stack.v
theories/Model_Text.v
theories/Model_Tuple.v
theories/Proof_Applicable.v
theories/Proof_Basis.v
theories/Proof_Bench.v
theories/Proof_Blade.v
theories/Proof_Blade2.v
theories/Proof_Blade3.v
theories/Proof_Blade4.v
theories/Proof_Collate.v
theories/Proof_CollateVal.v
theories/Proof_Compute.v
theories/Proof_Cost.v
theories/Proof_Crc.v
theories/Proof_Dfa.v
theories/Proof_Dfa2.v
theories/Proof_Div.v
theories/Proof_Div2.v
theories/Proof_Emit.v
theories/Proof_Emit2.v
theories/Proof_Engine.v
theories/Proof_Engine2.v
theories/Proof_Engine3.v
theories/Proof_Entity.v
theories/Proof_Entity2.v
theories/Proof_Evaluate.v
theories/Proof_Exp.v
theories/Proof_Expr.v
theories/Proof_Expr2.v
theories/Proof_Expr3.v
theories/Proof_Expr4.v
theories/Proof_Expr5.v
theories/Proof_Expr6.v
theories/Proof_Float.v
theories/Proof_Float2.v
theories/Proof_Float3.v
theories/Proof_Float4.v
theories/Proof_Float5.v
theories/Proof_Float6.v
theories/Proof_Float7.v
theories/Proof_FloatGeo.v
theories/Proof_FloatLog.v
theories/Proof_FloatMotor.v
theories/Proof_Format.v
theories/Proof_Gate.v
theories/Proof_Gens.v
theories/Proof_Geometry.v
theories/Proof_Ids.v
theories/Proof_Iter.v
theories/Proof_Iter2.v
theories/Proof_Iter3.v
theories/Proof_Layout.v
theories/Proof_MVAlg.v
theories/Proof_MVFlat.v
theories/Proof_Motion.v
theories/Proof_Nodes.v
theories/Proof_Numeric.v
theories/Proof_Ops.v
theories/Proof_Ops2.v
theories/Proof_Ops3.v
theories/Proof_Poly.v
theories/Proof_Product.v
theories/Proof_ProductVal.v
theories/Proof_Progress.v
theories/Proof_Proper.v
theories/Proof_Regress.v
theories/Proof_Reshape.v
theories/Proof_Reshape2.v
theories/Proof_Reshape3.v
theories/Proof_Reshape4.v
theories/Proof_Reshape5.v
theories/Proof_Reshape6.v
theories/Proof_Safe.v
theories/Proof_Scan.v
theories/Proof_Shared.v
theories/Proof_Sharing.v
theories/Proof_Sim.v
theories/Proof_Sort.v
theories/Proof_SortMap.v
theories/Proof_Sum.v
theories/Proof_Text.v
theories/Proof_Text2.v
theories/Proof_Tight.v
theories/Proof_Total.v
theories/Proof_Total2.v
theories/Proof_Util.v
theories/Proof_Val.v
theories/Props_Access.v
theories/Props_Bench.v
theories/Props_Bench2.v
theories/Props_Blades.v
theories/Props_Conformal.v
theories/Props_Conformal2.v
theories/Props_Cost.v
theories/Props_Engine.v
theories/Props_Entity.v
theories/Props_Evaluate.v
theories/Props_Expr.v
theories/Props_Expr2.v
theories/Props_Float.v
theories/Props_Float2.v
theories/Props_FloatGeo.v
theories/Props_FloatLog.v
theories/Props_Format.v
theories/Props_Geometry.v
theories/Props_Inputs.v
theories/Props_Iter.v
theories/Props_MV.v
theories/Props_MV2.v
theories/Props_Motions.v
theories/Props_Numeric.v
theories/Props_Plane.v
theories/Props_Progress.v
theories/Props_Regress.v
theories/Props_Reshape.v
theories/Props_Text.v
theories/Props_Total.v
theories/Props_Util.v
theories/Spec_Basis.v
theories/Spec_Bench.v
theories/Spec_Build.v
theories/Spec_Clifford.v
theories/Spec_Compute.v
theories/Spec_Crc.v
theories/Spec_Dfa.v
theories/Spec_Engine.v
theories/Spec_Entity.v
theories/Spec_Expr.v
theories/Spec_Float.v
theories/Spec_FloatGeo.v
theories/Spec_FloatTemps.v
theories/Spec_Format.v
theories/Spec_Geometry.v
theories/Spec_Inputs.v
theories/Spec_MV.v
theories/Spec_Numeric.v
theories/Spec_Regress.v
theories/Spec_Reshape.v
theories/Spec_Scan.v
theories/Spec_Sort.v
theories/Spec_Stack.v
theories/Spec_Text.v
