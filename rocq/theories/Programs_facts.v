(** Evaluation of the programs of Programs.v, without any law of arithmetic. *)
From Coq Require Import List Arith Bool Lia.
Import ListNotations.
From Verif Require Import Base Shapes Scalar Buffers Spec Contraction Node Eval Programs
  Index_facts Buffers_facts.

Section Arrays.
Context {F : Type}.

Lemma leaves_map (xs : list F) : leaves (map AF xs) = Some xs.
Proof. induction xs as [|x xs IH]; simpl; auto; rewrite IH; reflexivity. Qed.

Lemma elements_array (xs : list F) : elements (array1 xs) = Some xs.
Proof. apply leaves_map. Qed.

Lemma map_array (g : F -> F) xs : vmutate g (array1 xs) = array1 (map g xs).
Proof. unfold array1; simpl; rewrite map_length, !map_map; reflexivity. Qed.

Lemma zip_arrays (f : F -> F -> F) xs ys :
  length xs = length ys ->
  zip_map_id f (array1 xs) (array1 ys) =
  Ok (array1 (map (fun p => f (fst p) (snd p)) (combine xs ys))).
Proof.
  intro L; unfold array1, zip_map_id, zip_mut, dims_eqb; rewrite L, Nat.eqb_refl; cbn [andb].
  rewrite map_length, combine_length, L, Nat.min_id; do 2 f_equal; cbn [arr_zip]; f_equal.
  revert ys L; induction xs as [|x xs IH]; intros [|y ys] L; try discriminate L; auto.
  simpl; rewrite IH by (injection L; auto); reflexivity.
Qed.

Lemma zip_scalar_r (f : F -> F -> F) xs y :
  zip_map_id f (array1 xs) (VScal y) = Ok (array1 (map (fun x => f x y) xs)).
Proof.
  unfold array1, zip_map_id, zip_mut; rewrite map_length; do 2 f_equal.
  unfold arr_zip_field_r; simpl; rewrite !map_map; reflexivity.
Qed.

Lemma zip_scalar_l (f : F -> F -> F) x ys :
  zip_map_id f (VScal x) (array1 ys) = Ok (array1 (map (fun y => f x y) ys)).
Proof.
  unfold array1, zip_map_id, zip_map; rewrite map_length; do 2 f_equal.
  simpl; rewrite !map_map; reflexivity.
Qed.

Lemma get_array {E} (xs : list F) i :
  @get_unchecked F E (array1 xs) [i] = opt_unwrap (nth_error xs i).
Proof.
  unfold array1; simpl; rewrite nth_error_map; destruct (nth_error xs i); reflexivity.
Qed.

Context {S : Scalar F}.

Lemma dot_loop xs : forall ws pre pre' (E : Type) a,
  length xs = length ws -> length pre = length pre' ->
  @zip_fold_loop F F E (fun acc p => fadd acc (fmul (fst p) (snd p)))
    (get_unchecked (array1 (pre ++ xs))) (get_unchecked (array1 (pre' ++ ws)))
    (map (fun i => [i]) (seq (length pre) (length xs))) a =
  Ok (fold_left (fun acc p => fadd acc (fmul (fst p) (snd p))) (combine xs ws) a).
Proof.
  induction xs as [|x xs IH]; intros [|w ws] pre pre' E a L P; try discriminate L; auto.
  unfold zip_fold_loop in *; cbn [length seq map fold_left combine]; rewrite !get_array.
  rewrite !nth_error_app2 by lia.
  replace (length pre - length pre) with 0 by lia; replace (length pre - length pre') with 0 by lia.
  cbn [nth_error opt_unwrap res_bind fst snd].
  specialize (IH ws (pre ++ [x]) (pre' ++ [w]) E (fadd a (fmul x w))).
  rewrite !app_length, <- !app_assoc, Nat.add_1_r in IH; cbn [length app] in IH; simpl in L; apply IH; lia.
Qed.

Lemma dot_arrays xs ws :
  length xs = length ws ->
  zip_fold (fun acc p => fadd acc (fmul (fst p) (snd p))) fzero (array1 xs) (array1 ws) =
  Ok (dotted xs ws).
Proof.
  intro L; pose proof (dot_loop xs ws [] [] incompat fzero L eq_refl) as D.
  unfold dotted; rewrite <- D; unfold zip_fold; cbn [array1].
  assert (E : dims_eqb [length xs] [length ws] = true) by (apply dims_eqb_eq; congruence).
  rewrite E; reflexivity.
Qed.
End Arrays.

(** Lifted evaluation of operators from that of their operands, for nodes without caches. *)
Section Steps.
Context {F : Type} {S : Scalar F}.
Variable c : ctx F.

Definition gives (n : node F) (s : spec F) : Prop := evaluate_spec n c = (c, Ok s).

Lemma gives_var i v : c i = Some v -> gives (Var i) (Raw v).
Proof. intro H; unfold gives, evaluate_spec; simpl; unfold read_spec; rewrite H; reflexivity. Qed.

Lemma gives_un u m s : gives m s -> gives (Un u m) (un_spec_post u s).
Proof. intro H; unfold gives, evaluate_spec in *; simpl; rewrite H; reflexivity. Qed.

Lemma gives_add l r a b s : gives l a -> gives r b -> add_match a b = Ok s -> gives (Add l r) s.
Proof.
  intros Hl Hr E; unfold gives, evaluate_spec in *; simpl; unfold both.
  rewrite Hl; simpl; rewrite Hr; simpl; rewrite E; reflexivity.
Qed.

Lemma gives_sub l r a b s : gives l a -> gives r b -> sub_match a b = Ok s -> gives (Sub l r) s.
Proof.
  intros Hl Hr E; unfold gives, evaluate_spec in *; simpl; unfold both.
  rewrite Hl; simpl; rewrite Hr; simpl; rewrite E; reflexivity.
Qed.

Lemma gives_mul l r a b s : gives l a -> gives r b -> mul_match a b = Ok s -> gives (Mul l r) s.
Proof.
  intros Hl Hr E; unfold gives, evaluate_spec in *; simpl; unfold both.
  rewrite Hl; simpl; rewrite Hr; simpl; rewrite E; reflexivity.
Qed.

Lemma gives_contract axes l r a b s :
  gives l a -> gives r b -> contract_spec axes a b = Ok s -> gives (Contract axes l r) s.
Proof.
  intros Hl Hr E; unfold gives, evaluate_spec in *; cbn [interp contract_fn f_spec]; unfold both.
  rewrite Hl; cbn [res_map_err]; rewrite Hr; cbn [res_map_err]; rewrite E; reflexivity.
Qed.

Lemma eval_add l r s : gives (Add l r) s -> evaluate (Add l r) c = (c, Ok (unwrap s)).
Proof.
  unfold gives, evaluate, evaluate_spec; cbn [interp add_fn f_spec f_eval]; unfold eval_by_spec.
  intros ->; reflexivity.
Qed.
Lemma eval_mul l r s : gives (Mul l r) s -> evaluate (Mul l r) c = (c, Ok (unwrap s)).
Proof.
  unfold gives, evaluate, evaluate_spec; cbn [interp mul_fn f_spec f_eval]; unfold eval_by_spec.
  intros ->; reflexivity.
Qed.
Lemma eval_div l r x y v :
  evaluate l c = (c, Ok x) -> evaluate r c = (c, Ok y) -> zip_map_id fdiv x y = Ok v ->
  evaluate (Div l r) c = (c, Ok v).
Proof.
  unfold evaluate; cbn [interp div_fn f_eval]; unfold both_eval; intros Hl Hr E.
  rewrite Hl; cbn [res_map_err]; rewrite Hr; cbn [res_map_err]; rewrite E; reflexivity.
Qed.
End Steps.

(** The contexts of the examples. *)
Section Linear.
Context {F : Type} {S : Scalar F}.
Variables (xs ws : list F) (y : F).
Hypothesis L : length xs = length ws.
Notation n := (length xs).
Notation c := (xyw xs y ws).

Lemma read_x : c idX = Some (array1 xs). Proof. reflexivity. Qed.
Lemma read_y : c idY = Some (VScal y). Proof. reflexivity. Qed.
Lemma read_w : c idW = Some (array1 ws). Proof. reflexivity. Qed.

Lemma gives_dot : gives c x_dot_w (Raw (VScal (dotted xs ws))).
Proof.
  eapply gives_contract; [apply gives_var, read_x|apply gives_var, read_w|].
  unfold contract_spec; cbn [spec_bty bty_of array1].
  replace (n =? length ws) with true by (symmetry; apply Nat.eqb_eq, L).
  unfold dot_vec_vec; cbn [unwrap]; fold (array1 ws); fold (array1 xs).
  rewrite dot_arrays by exact L; reflexivity.
Qed.

Lemma gives_residual : gives c (Sub x_dot_w (Var idY)) (Raw (VScal (fsub (dotted xs ws) y))).
Proof.
  eapply gives_sub; [apply gives_dot|apply gives_var, read_y|reflexivity].
Qed.

(** Derivatives of the variables. *)
Lemma adj_w : gives c (VarAdj idW idW) (Diagonal (TA [n; n]) fone).
Proof.
  unfold gives, evaluate_spec; cbn [interp varadj_fn f_spec]; unfold varadj_spec, read_bty.
  rewrite read_w; cbn; rewrite <- L; reflexivity.
Qed.
Lemma adj_x : gives c (VarAdj idX idW) (Full (TA [n; n]) fzero).
Proof.
  unfold gives, evaluate_spec; cbn [interp varadj_fn f_spec]; unfold varadj_spec, read_bty.
  rewrite read_w; cbn; rewrite <- L; reflexivity.
Qed.
Lemma adj_y : gives c (VarAdj idY idW) (Full (TA [n]) fzero).
Proof.
  unfold gives, evaluate_spec; cbn [interp varadj_fn f_spec]; unfold varadj_spec, read_bty.
  rewrite read_w; cbn; rewrite <- L; reflexivity.
Qed.

Hypothesis Z : is_zero fzero = true.

(** The adjoint of [x.dot(w)]. *)
Definition dot_adj : node F :=
  Add (Contract 1 (Var idX) (VarAdj idW idW)) (Contract 1 (VarAdj idX idW) (Var idW)).

Lemma gives_dot_adj : gives c dot_adj (Raw (array1 (map (fun x => fmul x fone) xs))).
Proof.
  eapply gives_add.
  - eapply gives_contract; [apply gives_var, read_x|apply adj_w|].
    unfold contract_spec; cbn [spec_bty bty_of array1]; rewrite Nat.eqb_refl.
    unfold dot_vec_mat; rewrite Nat.eqb_refl; cbn [unwrap].
    fold (array1 xs); rewrite map_array; unfold array1, cast_dims; cbn [res_map]; reflexivity.
  - eapply gives_contract; [apply adj_x|apply gives_var, read_w|].
    unfold contract_spec; cbn [spec_bty bty_of array1]; rewrite <- L, Nat.eqb_refl.
    unfold dot_mat_vec; rewrite Z; reflexivity.
  - unfold add_match, spec_zeroes; rewrite Z; unfold array1, zip_shape; rewrite map_length.
    assert (E : dims_eqb [n] [n] = true) by (apply dims_eqb_eq; reflexivity).
    rewrite E; reflexivity.
Qed.

Lemma gives_sub_zero m zs :
  gives c m (Raw (array1 zs)) -> length zs = n ->
  gives c (Sub m (VarAdj idY idW)) (Raw (array1 zs)).
Proof.
  intros G Lz; eapply gives_sub; [exact G|apply adj_y|].
  unfold sub_match; rewrite Z; unfold array1, zip_shape; rewrite Lz.
  assert (E : dims_eqb [n] [n] = true) by (apply dims_eqb_eq; reflexivity).
  rewrite E; reflexivity.
Qed.

Lemma auto_linear :
  linear_auto c =
  Ok (array1 (map (fun x => fmul (fmul ftwo (fsub (dotted xs ws) y)) (fmul x fone)) xs)).
Proof.
  unfold linear_auto, auto_grad, evaluate_adjoint.
  change (adjoint linear_loss idW) with
    (Some (Mul (Un Double (Sub x_dot_w (Var idY))) (Sub dot_adj (@VarAdj F idY idW)))).
  cbn [option_map].
  assert (G : gives c (Mul (Un Double (Sub x_dot_w (Var idY))) (Sub dot_adj (VarAdj idY idW)))
                (Raw (array1 (map (fun x => fmul (fmul ftwo (fsub (dotted xs ws) y)) (fmul x fone)) xs)))).
  { eapply gives_mul; [apply gives_un, gives_residual|apply gives_sub_zero; [apply gives_dot_adj|apply map_length]|].
    cbn [un_spec_post unwrap vmutate mul_match]; unfold zip_dense; cbn [unwrap].
    rewrite zip_scalar_l, map_map; reflexivity. }
  rewrite (eval_mul _ _ _ _ G); reflexivity.
Qed.

Lemma hand_linear :
  linear_by_hand c = Ok (array1 (map (fun x => fmul (fmul ftwo (fsub (dotted xs ws) y)) x) xs)).
Proof.
  unfold linear_by_hand.
  assert (G : gives c linear_manual
                (Raw (array1 (map (fun x => fmul (fmul ftwo (fsub (dotted xs ws) y)) x) xs)))).
  { eapply gives_mul; [apply gives_un, gives_residual|apply gives_var, read_x|].
    cbn [un_spec_post unwrap vmutate mul_match]; unfold zip_dense; cbn [unwrap].
    rewrite zip_scalar_l; reflexivity. }
  unfold linear_manual in *; rewrite (eval_mul _ _ _ _ G); reflexivity.
Qed.

Lemma raw_linear :
  linear_raw c = Ok (array1 (map (fun x => fmul x (fmul ftwo (fsub (dotted xs ws) y))) xs)).
Proof.
  unfold linear_raw, read; rewrite read_x, read_w, read_y, !elements_array, <- L, Nat.eqb_refl.
  reflexivity.
Qed.

(** Logistic regression. *)
Hypothesis NZ : is_zero (fneg fzero) = true.
Notation s := (sigmoid (dotted xs ws)).

Lemma combine_maps (f : F -> F -> F) g h (l : list F) :
  map (fun p => f (fst p) (snd p)) (combine (map g l) (map h l)) = map (fun x => f (g x) (h x)) l.
Proof. induction l as [|x l IH]; simpl; auto; rewrite IH; reflexivity. Qed.

Lemma mul_scalar m k zs z :
  gives c m (Raw (array1 zs)) -> gives c k (Raw (VScal z)) ->
  gives c (Mul m k) (Raw (array1 (map (fun x => fmul x z) zs))).
Proof.
  intros Gm Gk; eapply gives_mul; [exact Gm|exact Gk|].
  unfold mul_match, zip_dense; cbn [unwrap]; rewrite zip_scalar_r; reflexivity.
Qed.

Lemma mul_zero m k x z :
  gives c m (Full (TA [n]) x) -> is_zero x = true -> gives c k (Raw (VScal z)) ->
  gives c (Mul m k) (Full (TA [n]) fzero).
Proof.
  intros Gm Hx Gk; eapply gives_mul; [exact Gm|exact Gk|].
  unfold mul_match; rewrite Hx; reflexivity.
Qed.

Lemma add_zero m k zs :
  gives c m (Raw (array1 zs)) -> length zs = n -> gives c k (Full (TA [n]) fzero) ->
  gives c (Add m k) (Raw (array1 zs)).
Proof.
  intros Gm Lz Gk; eapply gives_add; [exact Gm|exact Gk|].
  unfold add_match; rewrite Z; unfold array1, zip_shape; rewrite Lz.
  assert (E : dims_eqb [n] [n] = true) by (apply dims_eqb_eq; reflexivity).
  rewrite E; reflexivity.
Qed.

Lemma gives_model : gives c logistic_model (Raw (VScal s)).
Proof. apply (gives_un _ Sigmoid _ _ gives_dot). Qed.
Lemma gives_label : gives c (Var idY) (Raw (VScal y)).
Proof. apply gives_var, read_y. Qed.
Lemma gives_one_sub m z : gives c m (Raw (VScal z)) -> gives c (Un OneSub m) (Raw (VScal (fsub fone z))).
Proof. intro G; apply (gives_un _ OneSub _ _ G). Qed.

Lemma gives_likelihood :
  gives c likelihood (Raw (VScal (fadd (fmul s y) (fmul (fsub fone s) (fsub fone y))))).
Proof.
  eapply gives_add.
  - eapply gives_mul; [apply gives_model|apply gives_label|reflexivity].
  - eapply gives_mul; [apply gives_one_sub, gives_model|apply gives_one_sub, gives_label|reflexivity].
  - reflexivity.
Qed.

Notation g x := (fmul (fmul x fone) (fmul s (fsub fone s))).

Lemma auto_logistic :
  logistic_auto c =
  Ok (array1 (map (fun x => fdiv (fadd (fmul (g x) y) (fmul (fneg (g x)) (fsub fone y)))
                                 (fadd (fmul s y) (fmul (fsub fone s) (fsub fone y)))) xs)).
Proof.
  unfold logistic_auto, auto_grad, evaluate_adjoint.
  set (m' := Mul dot_adj (@Un F Rabbit logistic_model)).
  change (adjoint log_likelihood idW) with
    (Some (Div (Add (Add (Mul m' (Var idY)) (Mul (VarAdj idY idW) logistic_model))
                    (Add (Mul (Un Negate m') (Un OneSub (Var idY)))
                         (Mul (Un Negate (VarAdj idY idW)) (Un OneSub logistic_model))))
               (@likelihood F))).
  cbn [option_map].
  assert (Gm : gives c m' (Raw (array1 (map (fun x => g x) xs)))).
  { unfold m'; replace (map (fun x => g x) xs)
      with (map (fun x => fmul x (fmul s (fsub fone s))) (map (fun x => fmul x fone) xs))
      by (rewrite map_map; reflexivity).
    apply mul_scalar; [apply gives_dot_adj|apply (gives_un _ Rabbit _ _ gives_model)]. }
  assert (Gn : gives c (Un Negate m') (Raw (array1 (map (fun x => fneg (g x)) xs)))).
  { pose proof (gives_un _ Negate _ _ Gm) as G; cbn [un_spec_post unwrap] in G.
    rewrite map_array, map_map in G; exact G. }
  assert (Gt : gives c (Add (Add (Mul m' (Var idY)) (Mul (VarAdj idY idW) logistic_model))
                    (Add (Mul (Un Negate m') (Un OneSub (Var idY)))
                         (Mul (Un Negate (VarAdj idY idW)) (Un OneSub logistic_model))))
                 (Raw (array1 (map (fun x => fadd (fmul (g x) y) (fmul (fneg (g x)) (fsub fone y))) xs)))).
  { pose proof (mul_scalar _ _ _ _ Gm gives_label) as G1; rewrite map_map in G1.
    pose proof (mul_scalar _ _ _ _ Gn (gives_one_sub _ _ gives_label)) as G2; rewrite map_map in G2.
    eapply gives_add.
    - apply add_zero; [exact G1|apply map_length|].
      eapply mul_zero; [apply adj_y|exact Z|apply gives_model].
    - apply add_zero; [exact G2|apply map_length|].
      eapply mul_zero; [apply (gives_un _ Negate _ _ adj_y)|exact NZ|apply gives_one_sub, gives_model].
    - unfold add_match, zip_dense; cbn [unwrap]; rewrite zip_arrays by (rewrite !map_length; reflexivity).
      rewrite combine_maps; reflexivity. }
  erewrite eval_div; [reflexivity|apply (eval_add _ _ _ _ Gt)|apply (eval_add _ _ _ _ gives_likelihood)|].
  cbn [unwrap]; rewrite zip_scalar_r, map_map; reflexivity.
Qed.

Lemma hand_logistic :
  logistic_by_hand c =
  Ok (array1 (map (fun x => fmul (fsub (fmul y (fsub fone s)) (fmul (fsub fone y) s)) x) xs)).
Proof.
  unfold logistic_by_hand.
  assert (G : gives c logistic_manual (Raw (array1
    (map (fun x => fmul (fsub (fmul y (fsub fone s)) (fmul (fsub fone y) s)) x) xs)))).
  { eapply gives_mul; [|apply gives_var, read_x|].
    - eapply gives_sub.
      + eapply gives_mul; [apply gives_label|apply gives_one_sub, gives_model|reflexivity].
      + eapply gives_mul; [apply gives_one_sub, gives_label|apply gives_model|reflexivity].
      + reflexivity.
    - unfold mul_match, zip_dense; cbn [unwrap vmutate]; rewrite zip_scalar_l; reflexivity. }
  unfold logistic_manual in *; rewrite (eval_mul _ _ _ _ G); reflexivity.
Qed.

End Linear.

Section Loops.
Context {F : Type} {S : Scalar F}.

Lemma unwrap_array_ok (xs : list F) k : length xs = k -> unwrap_array k (Ok (array1 xs)) = Ok xs.
Proof. intro H; unfold unwrap_array; rewrite elements_array, H, Nat.eqb_refl; reflexivity. Qed.

Lemma descend_length rate (ws g : list F) : length g = length ws -> length (descend rate ws g) = length ws.
Proof. intro H; unfold descend; rewrite map_length, combine_length, H; apply Nat.min_id. Qed.
Lemma ascend_length rate (ws g : list F) : length g = length ws -> length (ascend rate ws g) = length ws.
Proof. intro H; unfold ascend; rewrite map_length, combine_length, H; apply Nat.min_id. Qed.

(** A loop whose gradient is always [f xs y ws]. *)
Lemma step_by (grad : ctx F -> res err (value F)) (f : F -> list F) rate tw ws xs :
  (forall y : F, grad (xyw xs y ws) = Ok (array1 (f y))) -> (forall y : F, length (f y) = length ws) ->
  linear_step grad rate tw ws xs = Ok (descend rate ws (f (dotted xs tw))).
Proof.
  intros G H; unfold linear_step; rewrite G, unwrap_array_ok by apply H; reflexivity.
Qed.

Lemma logistic_step_by (grad : ctx F -> res err (value F)) (f : list F) rate ws xs (b : bool) :
  grad (xyw xs (if b then fone else fzero) ws) = Ok (array1 f) -> length f = length ws ->
  logistic_step grad rate ws xs b = Ok (ascend rate ws f).
Proof.
  intros G H; unfold logistic_step; rewrite G, unwrap_array_ok by apply H; reflexivity.
Qed.

(** Two loops with the same gradients. *)
Lemma run_same (g1 g2 : ctx F -> res err (value F)) rate tw (P : list F -> Prop) draws : forall ws,
  (forall xs ws' (y : F), P xs -> length ws' = length ws ->
     exists v, g1 (xyw xs y ws') = Ok (array1 v) /\ g2 (xyw xs y ws') = Ok (array1 v) /\
               length v = length ws) ->
  Forall P draws ->
  exists ws', linear_run g1 rate tw ws draws = Ok ws' /\ linear_run g2 rate tw ws draws = Ok ws' /\
              length ws' = length ws.
Proof.
  induction draws as [|xs draws IH]; intros ws H D; [exists ws; auto|].
  inversion D as [|? ? Px D']; subst.
  destruct (H xs ws (dotted xs tw) Px eq_refl) as (v & E1 & E2 & Lv).
  cbn [linear_run]; unfold linear_step; rewrite E1, E2, unwrap_array_ok by exact Lv; cbn [res_map res_bind].
  pose proof (descend_length rate ws v Lv) as Ld.
  destruct (IH (descend rate ws v)) as (w & R1 & R2 & Lw); [|exact D'|].
  - rewrite Ld; exact H.
  - exists w; rewrite Ld in Lw; auto.
Qed.

Lemma logistic_same (g1 g2 : ctx F -> res err (value F)) rate (P : list F -> Prop) draws : forall ws,
  (forall xs ws' b, P xs -> length ws' = length ws ->
     exists v, g1 (xyw xs (if b : bool then fone else fzero) ws') = Ok (array1 v) /\
               g2 (xyw xs (if b then fone else fzero) ws') = Ok (array1 v) /\ length v = length ws) ->
  Forall (fun d => P (fst d)) draws ->
  exists ws', logistic_run g1 rate ws draws = Ok ws' /\ logistic_run g2 rate ws draws = Ok ws' /\
              length ws' = length ws.
Proof.
  induction draws as [|[xs b] draws IH]; intros ws H D; [exists ws; auto|].
  inversion D as [|? ? Px D']; subst.
  destruct (H xs ws b Px eq_refl) as (v & E1 & E2 & Lv).
  cbn [logistic_run]; unfold logistic_step; rewrite E1, E2, unwrap_array_ok by exact Lv; cbn [res_map res_bind].
  pose proof (ascend_length rate ws v Lv) as Ld.
  destruct (IH (ascend rate ws v)) as (w & R1 & R2 & Lw); [|exact D'|].
  - rewrite Ld; exact H.
  - exists w; rewrite Ld in Lw; auto.
Qed.
End Loops.

(** Caching. *)
Section Caching.
Context {F : Type} {S : Scalar F}.
Variable x : list F.

Definition once : F := fold_left fadd (map (fun a => fneg (fmul ftwo a)) x) fzero.
Definition eight : F :=
  let s := once in fadd (fadd (fadd (fadd (fadd (fadd (fadd s s) s) s) s) s) s) s.

Lemma vec_map (g : F -> F) l : vmutate g (VVec l) = VVec (map g l).
Proof. unfold vmutate; rewrite mutate_from_map; reflexivity. Qed.

Lemma basic_eval c : c idX = Some (VVec x) -> evaluate basic c = (c, Ok (VScal once)).
Proof.
  intro H; unfold evaluate, basic; cbn [interp sum_fn unary_fn var_fn f_eval]; unfold read; rewrite H.
  cbn [ok_or_undef res_map]; rewrite !vec_map, map_map; reflexivity.
Qed.
Lemma basic_spec c : c idX = Some (VVec x) -> evaluate_spec basic c = (c, Ok (Raw (VScal once))).
Proof.
  intro H; unfold evaluate_spec, basic; cbn [interp sum_fn unary_fn var_fn f_spec]; unfold read_spec; rewrite H.
  cbn [ok_or_undef res_map option_map into_spec un_spec_post unwrap sum_spec_post res_bind].
  rewrite !vec_map, map_map; reflexivity.
Qed.

Lemma add_scalars l r c c1 c2 a b :
  evaluate_spec l c = (c1, Ok (Raw (VScal a))) -> evaluate_spec r c1 = (c2, Ok (Raw (VScal b))) ->
  evaluate_spec (Add l r) c = (c2, Ok (Raw (VScal (fadd a b)))).
Proof.
  unfold evaluate_spec; cbn [interp add_fn f_spec]; unfold both; intros Hl Hr.
  rewrite Hl; cbn [res_map_err]; rewrite Hr; reflexivity.
Qed.

Lemma repeated_eval m c c' :
  evaluate_spec m c = (c', Ok (Raw (VScal once))) -> evaluate_spec m c' = (c', Ok (Raw (VScal once))) ->
  evaluate (repeated m) c = (c', Ok (VScal eight)).
Proof.
  intros H1 H2.
  assert (G : evaluate_spec (repeated m) c = (c', Ok (Raw (VScal eight))))
    by (repeat (eapply add_scalars; [|exact H2]); exact H1).
  unfold repeated in *; revert G; unfold evaluate, evaluate_spec.
  cbn [interp add_fn f_eval f_spec]; unfold eval_by_spec; intros ->; reflexivity.
Qed.

Lemma repeated_basic : evaluate (repeated basic) (cache_ctx x) = (cache_ctx x, Ok (VScal eight)).
Proof. apply repeated_eval; apply basic_spec; reflexivity. Qed.

Lemma repeated_cached :
  evaluate (repeated cached) (cache_ctx x) =
  (write (cache_ctx x) idC (VScal once), Ok (VScal eight)).
Proof.
  pose proof (basic_eval (cache_ctx x) eq_refl) as B.
  apply repeated_eval.
  - unfold cached, evaluate_spec, evaluate in *; cbn [interp cached_fn f_spec]; unfold default_spec, cached_eval.
    change (read (cache_ctx x) idC) with (@None (value F)); cbv iota; rewrite B; reflexivity.
  - reflexivity.
Qed.
End Caching.
