-Q theories Verif
theories/Base.v
theories/Shapes.v
theories/MultiProduct.v
theories/Usize.v
theories/Scalar.v
theories/Buffers.v
theories/Spec.v
theories/Contraction.v
theories/Node.v
theories/Eval.v
theories/Types.v
theories/Instances.v
theories/Dual.v
theories/Fmt.v
theories/Ids.v
theories/Derive.v
theories/Compile.v
theories/Syntax.v
theories/Ops_derive.v
theories/Report.v
theories/Programs.v
theories/Vocab.v
theories/Math.v
theories/Code_math.v
theories/Real_math.v
theories/Float_math.v
theories/Machine.v
theories/Machine_math.v
theories/Calculus.v
theories/Dual_math.v
theories/Fmt_math.v
theories/Debug.v
theories/Debug_math.v
theories/Debug_claims.v
theories/Text_math.v
theories/Diff_math.v
theories/Generic_math.v
theories/Enclosure_math.v
theories/Subst_math.v
theories/Macro_math.v
theories/Report_math.v
theories/Program_math.v
theories/Index_facts.v
theories/Shapes_facts.v
theories/MultiProduct_facts.v
theories/Usize_claims.v
theories/Buffers_facts.v
theories/Generic_facts.v
theories/Spec_facts.v
theories/Subset_facts.v
theories/Contraction_facts.v
theories/Contraction_entries.v
theories/Match_facts.v
theories/Eval_facts.v
theories/Typing_facts.v
theories/Progress_facts.v
theories/Exact_facts.v
theories/Math_facts.v
theories/Instance_facts.v
theories/Eval_claims.v
theories/Buffer_claims.v
theories/Math_claims.v
theories/Code_claims.v
theories/Absent_claims.v
theories/Diff_claims.v
theories/Cache_claims.v
theories/Diff_types.v
theories/Diff_twice.v
theories/Float_facts.v
theories/Shortcut_facts.v
theories/Float_claims.v
theories/Positive_claims.v
theories/Relate_facts.v
theories/Overflow_claims.v
theories/Monotone_claims.v
theories/Scale_claims.v
theories/Generic_claims.v
theories/Enclosure_claims.v
theories/Subst_claims.v
theories/Chain_claims.v
theories/Properties_subst.v
theories/Memo_math.v
theories/Memo_claims.v
theories/Properties_memo.v
theories/Hessian_facts.v
theories/Hessian_claims.v
theories/Rename_math.v
theories/Rename_claims.v
theories/Properties_hessian.v
theories/Branch_math.v
theories/Branch_claims.v
theories/Properties_branch.v
theories/Properties_enclosure.v
theories/Special_claims.v
theories/Scalar_claims.v
theories/Error_facts.v
theories/Adjoint_facts.v
theories/Zero_facts.v
theories/Calculus_facts.v
theories/Jacobian_facts.v
theories/Adjoint_claims.v
theories/Size_claims.v
theories/Calculus_claims.v
theories/Contract_claims.v
theories/Gradient_claims.v
theories/Machine_facts.v
theories/Machine_claims.v
theories/Regression_claims.v
theories/Dual_claims.v
theories/Fmt_claims.v
theories/Fmt_arrays.v
theories/Fmt_inj.v
theories/Alike_math.v
theories/Alike_claims.v
theories/Read_facts.v
theories/Read_claims.v
theories/Ids_claims.v
theories/Derive_claims.v
theories/Compile_claims.v
theories/Syntax_claims.v
theories/Print_claims.v
theories/Ops_claims.v
theories/Report_claims.v
theories/Programs_facts.v
theories/Programs_claims.v
theories/Conformance.v
theories/Properties_shapes.v
theories/Properties_eval.v
theories/Properties_buffers.v
theories/Properties_math.v
theories/Properties_adjoint.v
theories/Properties_calculus.v
theories/Properties_dual.v
theories/Properties_fmt.v
theories/Properties_macros.v
theories/Properties_programs.v
theories/Properties_ops.v
theories/Properties_report.v
theories/Properties_float.v
theories/Properties_format.v
theories/Properties_generic.v
theories/Properties_machine.v
theories/Properties_rename.v
theories/Properties_alike.v
theories/Equality.v
theories/Equality_math.v
theories/Equality_claims.v
theories/Properties_debug.v
theories/Properties_equality.v
theories/Regret_claims.v
theories/Properties_regret.v
theories/Fit_math.v
theories/Fit_claims.v
theories/Properties_fit.v
theories/Swap_math.v
theories/Swap_claims.v
theories/Properties_swap.v
theories/Mean_math.v
theories/Mean_claims.v
theories/Properties_mean.v
theories/Drift_math.v
theories/Drift_claims.v
theories/Properties_drift.v
theories/Ascent_math.v
theories/Ascent_claims.v
theories/Properties_ascent.v
theories/Label_math.v
theories/Label_claims.v
theories/Properties_label.v
theories/Chance_math.v
theories/Chance_claims.v
theories/Properties_chance.v
theories/Typed_math.v
theories/Typed_claims.v
theories/Properties_typed.v
theories/Leaf_math.v
theories/Leaf_claims.v
theories/Properties_leaf.v
theories/Sign_math.v
theories/Sign_claims.v
theories/Train_claims.v
theories/Properties_sign.v
theories/Order_math.v
theories/Order_claims.v
theories/Order_adjoint.v
theories/Order_runs.v
theories/Properties_order.v
theories/Descent_claims.v
theories/Descent_second.v
theories/Properties_descent.v
