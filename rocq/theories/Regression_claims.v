(** The gradient of the squared error of a linear prediction, operation by operation and in floating
    point; in the form used by Properties_float.v. *)
From Coq Require Import List Arith ZArith Reals SpecFloat Bool Lia Lra.
Import ListNotations.
From Flocq Require Core BinarySingleNaN.
From Verif Require Import Base Shapes Scalar Buffers Spec Contraction Node Eval Types Instances
  Vocab Math Float_math Index_facts Buffers_facts Buffer_claims Spec_facts Eval_facts Contraction_entries
  Float_facts Float_claims Scalar_claims Error_facts Programs Programs_claims.

Section Steps.
Context {F : Type} {S : Scalar F}.

Lemma fold_ix1 {A} (f : A -> list nat -> A) n a :
  fold_left f (all_ix [n]) a = fold_left (fun acc k => f acc [k]) (seq 0 n) a.
Proof.
  cbn [all_ix map]; generalize (seq 0 n) as l; intro l; revert a.
  induction l as [|i l IH]; intro a; cbn; auto.
Qed.

Lemma both_ok {A B} (l : ctx F -> ctx F * res err A) (r : ctx F -> ctx F * res err B) k (c : ctx F) a b :
  l c = (c, Ok a) -> r c = (c, Ok b) -> both l r k c = (c, k a b).
Proof. intros E1 E2; unfold both; rewrite E1; cbn [res_map_err]; rewrite E2; reflexivity. Qed.

Lemma residual_steps n (x w y : ident) vx vw (b : F) (c : ctx F) :
  c x = Some vx -> vwf vx -> bty_of vx = TA [n] ->
  c w = Some vw -> vwf vw -> bty_of vw = TA [n] ->
  c y = Some (VScal b) ->
  evaluate (Un Double (Sub (Contract 1 (Var x) (Var w)) (Var y))) c =
    (c, Ok (VScal (fmul (fadd fone fone)
      (fsub (sum_over (seq 0 n) (fun k => fmul (vat fzero vx [k]) (vat fzero vw [k]))) b)))).
Proof.
  intros Cx Wx Tx Cw Ww Tw Cy.
  destruct vx as [|?|?|dx ax]; try discriminate Tx; injection Tx as ->.
  destruct vw as [|?|?|dw aw]; try discriminate Tw; injection Tw as ->.
  set (vx := VArr [n] ax) in *; set (vw := VArr [n] aw) in *.
  assert (Sx : f_spec (interp (Var x)) c = (c, Ok (Raw vx))) by (cbn; unfold read_spec; rewrite Cx; reflexivity).
  assert (Sw : f_spec (interp (Var w)) c = (c, Ok (Raw vw))) by (cbn; unfold read_spec; rewrite Cw; reflexivity).
  assert (Sy : f_spec (interp (Var y)) c = (c, Ok (Raw (VScal b)))) by (cbn; unfold read_spec; rewrite Cy; reflexivity).
  unfold evaluate; cbn [interp unary_fn sub_fn contract_fn f_spec f_eval] in *; unfold eval_by_spec.
  assert (S1 := both_ok _ _ (fun x y => res_map_err EOutput (contract_spec 1 x y)) _ _ _ Sx Sw).
  unfold contract_spec, vx, vw in S1; cbn [spec_bty bty_of] in S1; rewrite Nat.eqb_refl in S1.
  unfold dot_vec_vec in S1; cbn [unwrap] in S1; fold vx vw in S1.
  rewrite (zip_fold_pointwise _ _ _ vx vw Wx Ww (or_introl eq_refl) fzero) in S1; cbn [res_map res_map_err] in S1.
  unfold vshape, vx in S1; cbn [bty_of bty_shape dims] in S1; rewrite fold_ix1 in S1; fold vx in S1.
  rewrite (both_ok _ _ _ _ _ _ S1 Sy); reflexivity.
Qed.

Lemma regression_steps n (x w y : ident) vx vw (b : F) (c : ctx F) :
  is_zero (fzero : F) = true ->
  x <> w -> y <> w ->
  c x = Some vx -> vwf vx -> bty_of vx = TA [n] ->
  c w = Some vw -> vwf vw -> bty_of vw = TA [n] ->
  c y = Some (VScal b) ->
  exists v, evaluate_adjoint (sse x w y) w c = Some (c, Ok v) /\ vwf v /\ bty_of v = TA [n] /\
    forall i, i < n ->
      vat fzero v [i] =
      fmul (fmul (fadd fone fone)
              (fsub (sum_over (seq 0 n) (fun k => fmul (vat fzero vx [k]) (vat fzero vw [k]))) b))
           (fmul (vat fzero vx [i]) fone).
Proof.
  intros Z Nx Ny Cx Wx Tx Cw Ww Tw Cy.
  destruct vx as [|?|?|dx ax]; try discriminate Tx; injection Tx as ->.
  destruct vw as [|?|?|dw aw]; try discriminate Tw; injection Tw as ->.
  unfold evaluate_adjoint, sse; cbn [adjoint obind un_adjoint option_map].
  set (vx := VArr [n] ax) in *; set (vw := VArr [n] aw) in *.
  set (d := fold_left (fun acc ix => fadd acc (fmul (vat fzero vx ix) (vat fzero vw ix))) (all_ix [n]) fzero).
  assert (Sx : f_spec (interp (Var x)) c = (c, Ok (Raw vx))) by (cbn; unfold read_spec; rewrite Cx; reflexivity).
  assert (Sw : f_spec (interp (Var w)) c = (c, Ok (Raw vw))) by (cbn; unfold read_spec; rewrite Cw; reflexivity).
  assert (Sy : f_spec (interp (Var y)) c = (c, Ok (Raw (VScal b)))) by (cbn; unfold read_spec; rewrite Cy; reflexivity).
  assert (Aww : f_spec (interp (VarAdj w w)) c = (c, Ok (Diagonal (TA [n; n]) fone))).
  { cbn; unfold varadj_spec, read_bty; rewrite Cw; cbn; unfold ident_eqb; rewrite Nat.eqb_refl; reflexivity. }
  assert (Axw : f_spec (interp (VarAdj x w)) c = (c, Ok (Full (TA [n; n]) fzero))).
  { cbn; unfold varadj_spec, read_bty; rewrite Cw, Cx; cbn; unfold ident_eqb.
    destruct (Nat.eqb_spec x w) as [->|_]; [congruence|reflexivity]. }
  assert (Ayw : f_spec (interp (VarAdj y w)) c = (c, Ok (Full (TA [n]) fzero))).
  { cbn; unfold varadj_spec, read_bty; rewrite Cw, Cy; cbn; unfold ident_eqb.
    destruct (Nat.eqb_spec y w) as [->|_]; [congruence|reflexivity]. }
  assert (S1 : f_spec (interp (Contract 1 (Var x) (Var w))) c = (c, Ok (Raw (VScal d)))).
  { cbn [interp contract_fn f_spec]; rewrite (both_ok _ _ _ _ _ _ Sx Sw).
    unfold contract_spec, vx, vw; cbn [spec_bty bty_of]; rewrite Nat.eqb_refl; unfold dot_vec_vec; cbn [unwrap].
    fold vx vw; rewrite (zip_fold_pointwise _ _ _ vx vw Wx Ww (or_introl eq_refl) fzero); reflexivity. }
  assert (S2 : f_spec (interp (Un Double (Sub (Contract 1 (Var x) (Var w)) (Var y)))) c =
    (c, Ok (Raw (VScal (fmul ftwo (fsub d b)))))).
  { cbn [interp unary_fn sub_fn f_spec] in *; rewrite (both_ok _ _ _ _ _ _ S1 Sy); reflexivity. }
  set (xs := vmutate (fun xi => fmul xi fone) vx).
  assert (S3 : f_spec (interp (Contract 1 (Var x) (VarAdj w w))) c = (c, Ok (Raw xs))).
  { cbn [interp contract_fn f_spec] in *; rewrite (both_ok _ _ _ _ _ _ Sx Aww).
    unfold contract_spec, vx; cbn [spec_bty bty_of]; rewrite Nat.eqb_refl; unfold dot_vec_mat; cbn [unwrap].
    rewrite Nat.eqb_refl; reflexivity. }
  assert (S4 : f_spec (interp (Contract 1 (VarAdj x w) (Var w))) c = (c, Ok (Full (TA [n]) fzero))).
  { cbn [interp contract_fn f_spec] in *; rewrite (both_ok _ _ _ _ _ _ Axw Sw).
    unfold contract_spec, vw; cbn [spec_bty bty_of]; rewrite Nat.eqb_refl; unfold dot_mat_vec; rewrite Z; reflexivity. }
  assert (Txs : bty_of xs = TA [n]) by (unfold xs; rewrite vmutate_vmap; apply vmap_bty).
  assert (Wxs : vwf xs) by (unfold xs; rewrite vmutate_vmap; apply vmap_wf; exact Wx).
  assert (Zs : zip_shape xs (TA [n]) = Ok xs).
  { unfold xs, vx; cbn [vmutate zip_shape]; cbn; rewrite Nat.eqb_refl; reflexivity. }
  set (m2 := Sub (Add (Contract 1 (Var x) (VarAdj w w)) (Contract 1 (VarAdj x w) (Var w))) (VarAdj y w)).
  assert (S5 : f_spec (interp m2) c = (c, Ok (Raw xs))).
  { unfold m2; cbn [interp sub_fn add_fn f_spec] in *.
    assert (S6 := both_ok _ _ (fun x y => res_map_err EOutput (add_match x y)) _ _ _ S3 S4).
    cbn [add_match] in S6; rewrite Z, Zs in S6; cbn [res_map res_map_err] in S6.
    rewrite (both_ok _ _ _ _ _ _ S6 Ayw); cbn [sub_match]; rewrite Z, Zs; reflexivity. }
  unfold evaluate; cbn [interp f_eval mul_fn eval_by_spec].
  unfold eval_by_spec; change (f_spec (unary_fn Double _)) with
    (f_spec (interp (Un Double (Sub (Contract 1 (Var x) (Var w)) (Var y))))).
  fold (interp m2); change (f_spec (sub_fn _ _)) with (f_spec (interp m2)).
  rewrite (both_ok _ _ _ _ _ _ S2 S5); cbn [mul_match]; unfold zip_dense; cbn [unwrap].
  assert (Exs : xs = VArr [n] (arr_build [n] (fun ix => vat fzero xs ix))).
  { rewrite (value_eta fzero xs) at 1 by auto; rewrite Txs; reflexivity. }
  set (e := fmul ftwo (fsub d b)).
  assert (Ez : zip_map_id fmul (VScal e) xs = Ok (build (TA [n]) (fun ix => fmul e (vat fzero xs ix)))).
  { rewrite Exs at 1; cbn [zip_map_id zip_map]; rewrite arr_zip_field_l_build; reflexivity. }
  rewrite Ez; cbn [res_unwrap res_map res_map_err unwrap]; eexists; split; [reflexivity|].
  split; [apply build_wf; cbn; lia|split; [apply build_bty|]]; intros i Hi.
  rewrite vat_build by (repeat constructor; exact Hi).
  unfold e, d, ftwo; rewrite fold_ix1; f_equal.
  unfold xs; rewrite vmutate_vmap, (vat_vmap _ _ fzero) by (auto; repeat constructor; exact Hi); reflexivity.
Qed.
End Steps.

Local Open Scope R_scope.
Section Floats.
Context {prec emax : Z} {FMT : Format prec emax}.
Variables (pow : f64 -> f64 -> f64) (lib : libfn -> f64 -> f64).
#[local] Instance r64 : Scalar f64 := float_scalar prec emax pow lib.
#[local] Notation good := (Float_claims.good (prec := prec) (emax := emax)).

Lemma mul_one x : float_valid prec emax x -> SFmul prec emax (float_of_Z prec emax 1) x = x.
Proof.
  intro V; destruct (of_Z_real (prec := prec) (emax := emax) 1) as [V1 _].
  destruct (of_Z_small (prec := prec) (emax := emax) 1) as [F1 R1]; [assert (R2 := room_two (prec := prec) (emax := emax)); lia|].
  destruct (Req_dec (f64_real x) 0) as [E|E].
  - destruct (float_of_Z prec emax 1) as [s|s| |s m e]; cbn [finite f64_real] in F1, R1; try contradiction; [exfalso; lra|].
    assert (s = false).
    { destruct s; [|reflexivity]; exfalso; assert (P : 0 < IZR (Zpos m) * powerRZ 2 e) by (apply Rmult_lt_0_compat; [apply IZR_lt; lia|apply powerRZ_lt; lra]).
      cbn in R1, P; lra. }
    subst s; destruct x as [t|t| |t k q]; try (destruct t; reflexivity); try reflexivity.
    exfalso; assert (P : 0 < IZR (Zpos k) * powerRZ 2 q) by (apply Rmult_lt_0_compat; [apply IZR_lt; lia|apply powerRZ_lt; lra]).
    destruct t; cbn in E, P; lra.
  - destruct (mul_real (float_of_Z prec emax 1) x V1 V) as (V2 & H2 & F2).
    rewrite R1, Rmult_1_l, (rnd_id _ (valid_format x V)) in H2, F2.
    assert (Fi := F2 F1 (finite_real x E)).
    assert (B : Rabs (f64_real x) < Raux.bpow Zaux.radix2 emax)
      by (destruct (valid_B x V) as [z ->]; rewrite f64_real_B; apply BinarySingleNaN.abs_B2R_lt_emax).
    specialize (Fi B); specialize (H2 Fi).
    symmetry; apply (same_float (prec := prec) (emax := emax)); auto.
Qed.

Lemma leaves_wf {A} n (l : list A) : length l = n -> vwf (VArr [n] (AN (map AF l))).
Proof.
  intro L; cbn; rewrite map_length; split; [split; [exact L|]|lia].
  apply Forall_forall; intros a Ha; apply in_map_iff in Ha; destruct Ha as (z & <- & _); exact Logic.I.
Qed.

Lemma good_loop_from k f e a l : forall k0 x ex ax, (k <= k0)%nat -> good k0 x ex ax ->
  (forall i : nat, In i l -> good k (f i) (e i) (a i)) ->
  good (k0 + length l) (fold_left (fun s i => SFadd prec emax s (f i)) l x)
    (fold_left (fun s i => s + e i) l ex) (fold_left (fun s i => s + a i) l ax).
Proof.
  induction l as [|i l IH]; intros k0 x ex ax L G H; cbn [fold_left length].
  - rewrite Nat.add_0_r; exact G.
  - replace (k0 + S (length l))%nat with (S k0 + length l)%nat by lia; apply IH.
    + lia.
    + apply good_add; [exact G|]; apply good_le with k; [apply H; left; reflexivity|exact L].
    + intros j Hj; apply H; right; exact Hj.
Qed.

Lemma good_loop k f e a n :
  (forall i, (i < n)%nat -> good k (f i) (e i) (a i)) ->
  good (k + n - 1) (fold_left (fun s i => SFadd prec emax s (f i)) (seq 0 n) f64_zero)
    (fold_left (fun s i => s + e i) (seq 0 n) 0) (fold_left (fun s i => s + a i) (seq 0 n) 0).
Proof.
  intro H; destruct n as [|n].
  - cbn; apply good_of_null; rewrite Rabs_R0; [lra|simpl; lra].
  - cbn [seq fold_left].
    replace (k + S n - 1)%nat with (k + length (seq 1 n))%nat by (rewrite seq_length; lia).
    apply good_loop_from with k; [lia|apply good_from_zero, H; lia|].
    intros i Hi; apply in_seq in Hi; apply H; lia.
Qed.

Lemma regression_floats_unit (UNIT : forall z, float_valid prec emax z -> SFmul prec emax (float_of_Z prec emax 1) z = z)
  (xs ws : list f64) (b e : f64) (x w y : ident) (c : ctx f64) :
  x <> w -> y <> w -> length xs = length ws ->
  c x = Some (VArr [length xs] (AN (map AF xs))) -> c w = Some (VArr [length xs] (AN (map AF ws))) ->
  c y = Some (VScal b) ->
  Forall (float_valid prec emax) xs ->
  evaluate (Un Double (Sub (Contract 1 (Var x) (Var w)) (Var y))) c = (c, Ok (VScal e)) ->
  evaluate_adjoint (sse x w y) w c =
    Some (c, Ok (VArr [length xs] (AN (map AF (map (SFmul prec emax e) xs))))).
Proof.
  intros Nx Ny L Cx Cw Cy V He.
  set (n := length xs) in *; set (vx := VArr [n] (AN (map AF xs))) in *; set (vw := VArr [n] (AN (map AF ws))) in *.
  assert (Wx : vwf vx) by (apply leaves_wf; reflexivity).
  assert (Ww : vwf vw) by (apply leaves_wf; auto).
  rewrite (residual_steps n x w y vx vw b c Cx Wx eq_refl Cw Ww eq_refl Cy) in He.
  assert (K : forall p q : f64, (c, Ok (VScal p) : res err (value f64)) = (c, Ok (VScal q)) -> p = q)
    by (intros p q Q; congruence).
  apply K in He.
  assert (Z : is_zero (fzero : f64) = true) by reflexivity.
  destruct (regression_steps n x w y vx vw b c Z Nx Ny Cx Wx eq_refl Cw Ww eq_refl Cy) as (v & Ev & Wv & Tv & H).
  rewrite Ev; do 2 f_equal; f_equal.
  apply value_ext with (d := f64_zero).
  - exact Wv.
  - apply leaves_wf; apply map_length.
  - exact Tv.
  - rewrite Tv; intros ix Bx; apply box1_inv in Bx; destruct Bx as (i & -> & Hi).
    assert (Hv := H i Hi); rewrite He in Hv; change (@fzero f64 r64) with f64_zero in Hv; rewrite Hv.
    unfold vx; rewrite !vat_arr.
    rewrite (nth_indep (map _ xs) f64_zero (SFmul prec emax e f64_zero)) by (rewrite map_length; exact Hi).
    rewrite map_nth; change (@fmul f64 r64) with (SFmul prec emax); f_equal.
    change (@fone f64 r64) with (float_of_Z prec emax 1); rewrite f64_mul_comm; apply UNIT.
    rewrite Forall_forall in V; apply V, nth_In; exact Hi.
Qed.

Lemma regression_floats (xs ws : list f64) (b e : f64) (x w y : ident) (c : ctx f64) :
  x <> w -> y <> w -> length xs = length ws ->
  c x = Some (VArr [length xs] (AN (map AF xs))) -> c w = Some (VArr [length xs] (AN (map AF ws))) ->
  c y = Some (VScal b) ->
  Forall (float_valid prec emax) xs ->
  evaluate (Un Double (Sub (Contract 1 (Var x) (Var w)) (Var y))) c = (c, Ok (VScal e)) ->
  evaluate_adjoint (sse x w y) w c =
    Some (c, Ok (VArr [length xs] (AN (map AF (map (SFmul prec emax e) xs))))).
Proof. apply (regression_floats_unit mul_one). Qed.

Lemma regression_error (xs ws : list f64) (b e : f64) (x w y : ident) (c : ctx f64) g j :
  x <> w -> y <> w -> length xs = length ws ->
  c x = Some (VArr [length xs] (AN (map AF xs))) -> c w = Some (VArr [length xs] (AN (map AF ws))) ->
  c y = Some (VScal b) ->
  Forall (float_valid prec emax) xs -> Forall (float_valid prec emax) ws -> (float_valid prec emax) b ->
  evaluate (Un Double (Sub (Contract 1 (Var x) (Var w)) (Var y))) c = (c, Ok (VScal e)) ->
  Forall (fun p => (normal_product_in emax) (fst p) (snd p)) (combine xs ws) ->
  Forall ((normal_product_in emax) e) xs ->
  evaluate_adjoint (sse x w y) w c = Some (c, Ok (VArr [length xs] (AN (map AF g)))) ->
  (j < length xs)%nat -> finite (nth j g f64_zero) ->
  Rabs (f64_real (nth j g f64_zero)
        - 2 * (fold_right Rplus 0 (map (fun p => f64_real (fst p) * f64_real (snd p)) (combine xs ws)) - f64_real b)
          * f64_real (nth j xs f64_zero))
    <= ((1 + / 2 ^ Z.to_nat prec) ^ (length xs + 2) - 1) *
       (2 * (fold_right Rplus 0 (map (fun p => Rabs (f64_real (fst p)) * Rabs (f64_real (snd p))) (combine xs ws))
             + Rabs (f64_real b))
        * Rabs (f64_real (nth j xs f64_zero))).
Proof.
  intros Nx Ny L Cx Cw Cy Vx Vw Vb He N1 N2 Ev Hj Fi.
  rewrite (regression_floats xs ws b e x w y c Nx Ny L Cx Cw Cy Vx He) in Ev.
  assert (Eg : g = map (SFmul prec emax e) xs).
  { assert (K : forall p q : list f64,
      Some (c, Ok (VArr [length xs] (AN (map AF p))) : res err (value f64)) =
      Some (c, Ok (VArr [length xs] (AN (map AF q)))) -> map (@AF f64) p = map (@AF f64) q).
    { intros p q Q; generalize dependent (length xs); intros; congruence. }
    apply K in Ev; clear - Ev; revert Ev; generalize (map (SFmul prec emax e) xs) as h; intro h; revert g.
    induction h as [|z h IH]; intros [|z' g] Q; try discriminate Q; auto.
    injection Q as Q1 Q2; subst z'; f_equal; auto. }
  subst g; clear Ev.
  assert (Wx : vwf (VArr [length xs] (AN (map AF xs)))) by (apply leaves_wf; reflexivity).
  assert (Ww : vwf (VArr [length xs] (AN (map AF ws)))) by (apply leaves_wf; auto).
  rewrite (residual_steps (length xs) x w y _ _ b c Cx Wx eq_refl Cw Ww eq_refl Cy) in He.
  assert (K : forall p q : f64, (c, Ok (VScal p) : res err (value f64)) = (c, Ok (VScal q)) -> p = q)
    by (intros p q Q; congruence).
  apply K in He; clear K.
  rewrite (nth_indep _ f64_zero (SFmul prec emax e f64_zero)) in * by (rewrite map_length; exact Hj).
  rewrite map_nth in *.
  rewrite Forall_forall in Vx, Vw, N1, N2.
  assert (Gd := good_loop 1 (fun k => SFmul prec emax (nth k xs f64_zero) (nth k ws f64_zero))
    (fun k => f64_real (nth k xs f64_zero) * f64_real (nth k ws f64_zero))
    (fun k => Rabs (f64_real (nth k xs f64_zero)) * Rabs (f64_real (nth k ws f64_zero))) (length xs)).
  assert (Gd' := Gd (fun i Hi => good_mul 0 0 _ _ _ _ _ _
    (good_leaf _ (Vx _ (nth_In xs f64_zero Hi)))
    (good_leaf _ (Vw _ (nth_In ws f64_zero (eq_ind _ (fun n => (i < n)%nat) Hi _ L))))
    (N1 (nth i xs f64_zero, nth i ws f64_zero)
        (eq_ind _ (fun p => In p (combine xs ws))
           (nth_In (combine xs ws) (f64_zero, f64_zero)
              (eq_ind_r (fun n => (i < n)%nat) (Nat.min_glb_lt _ _ _ Hi (eq_ind _ (fun n => (i < n)%nat) Hi _ L)) (combine_length xs ws)))
           _ (combine_nth xs ws i f64_zero f64_zero L))))); clear Gd.
  rewrite !fold_sum, !Rplus_0_l in Gd'.
  rewrite (zip_seq _ _ _ (fun p q => f64_real p * f64_real q) f64_zero f64_zero xs ws L) in Gd'.
  rewrite (zip_seq _ _ _ (fun p q => Rabs (f64_real p) * Rabs (f64_real q)) f64_zero f64_zero xs ws L) in Gd'.
  replace (1 + length xs - 1)%nat with (length xs) in Gd' by lia.
  assert (Gb := good_le 0 (length xs) _ _ _ (good_leaf _ Vb) (Nat.le_0_l _)).
  assert (Gs := good_double _ _ _ _ (good_sub _ _ _ _ _ _ _ Gd' Gb)).
  assert (Ee : e = SFmul prec emax (SFadd prec emax (float_of_Z prec emax 1) (float_of_Z prec emax 1)) (SFsub prec emax
     (fold_left (fun s i => SFadd prec emax s (SFmul prec emax (nth i xs f64_zero) (nth i ws f64_zero)))
        (seq 0 (length xs)) f64_zero) b)).
  { rewrite <- He; change (@fmul f64 r64) with (SFmul prec emax); f_equal; change (@fsub f64 r64) with (SFsub prec emax).
    f_equal; unfold sum_over; change (@fadd f64 r64) with (SFadd prec emax).
    assert (X : forall l s, fold_left (fun a k => SFadd prec emax a (SFmul prec emax
       (vat fzero (VArr [length xs] (AN (map AF xs))) [k]) (vat fzero (VArr [length xs] (AN (map AF ws))) [k]))) l s =
      fold_left (fun s i => SFadd prec emax s (SFmul prec emax (nth i xs f64_zero) (nth i ws f64_zero))) l s).
    { induction l as [|i l IH]; intro s; cbn [fold_left]; auto; rewrite IH, !vat_arr; reflexivity. }
    apply X. }
  rewrite <- Ee in Gs.
  assert (Gm := good_mul _ _ _ _ _ _ _ _ Gs (good_leaf _ (Vx _ (nth_In xs f64_zero Hj)))
    (N2 _ (nth_In xs f64_zero Hj))).
  destruct Gm as (_ & _ & Gm); specialize (Gm Fi).
  replace (S (S (length xs) + 0))%nat with (length xs + 2)%nat in Gm by lia.
  replace (1 + 1) with 2 in Gm by ring; exact Gm.
Qed.
Lemma format_gradients_same xs ws y :
  length xs = length ws -> Forall (float_valid prec emax) xs ->
  exists g, linear_auto (xyw xs y ws) = Ok (array1 g) /\ linear_by_hand (xyw xs y ws) = Ok (array1 g) /\
            linear_raw (xyw xs y ws) = Ok (array1 g) /\ length g = length ws.
Proof. apply gradients_same; [reflexivity|apply f64_mul_comm|apply mul_one]. Qed.

Lemma format_runs_same rate tw ws draws :
  Forall (fun xs => length xs = length ws /\ Forall (float_valid prec emax) xs) draws ->
  exists ws', linear_run linear_auto rate tw ws draws = Ok ws' /\
              linear_run linear_by_hand rate tw ws draws = Ok ws' /\
              linear_run linear_raw rate tw ws draws = Ok ws' /\ length ws' = length ws.
Proof. apply runs_same; [reflexivity|apply f64_mul_comm|apply mul_one]. Qed.
End Floats.

(** In f64, without the reals. *)
Lemma f64_regression_floats pow lib : let S := f64_scalar pow lib in
  forall (xs ws : list f64) (b e : f64) (x w y : ident) (c : ctx f64),
  x <> w -> y <> w -> length xs = length ws ->
  c x = Some (VArr [length xs] (AN (map AF xs))) -> c w = Some (VArr [length xs] (AN (map AF ws))) ->
  c y = Some (VScal b) ->
  Forall (float_valid 53 1024) xs ->
  evaluate (Un Double (Sub (Contract 1 (Var x) (Var w)) (Var y))) c = (c, Ok (VScal e)) ->
  evaluate_adjoint (sse x w y) w c =
    Some (c, Ok (VArr [length xs] (AN (map AF (map (SFmul 53 1024 e) xs))))).
Proof. exact (@regression_floats_unit 53 1024 pow lib SFmul_one). Qed.
