(** Evaluation facts in the form used by Properties_eval.v. *)
From Coq Require Import List Arith ZArith Bool SpecFloat Lia Ring.
Import ListNotations.
From Verif Require Import Base Shapes Scalar Buffers Spec Contraction Node Eval Types Instances Machine Vocab Math
  Index_facts Buffers_facts Spec_facts Match_facts Eval_facts Typing_facts Progress_facts Exact_facts.

Section RingSum.
Context {F : Type} {SF : Scalar F}.
Hypothesis R : ring_theory fzero fone fadd fmul fsub fneg (@eq F).
Add Ring FR : R.

Lemma ring_sum_law :
  (forall k, fof_usize k = Some (Nat.iter k (fun a : F => fadd a fone) fzero)) -> sum_law.
Proof.
  intros O n x; exists (Nat.iter n (fun a => fadd a fone) fzero); split; auto.
  induction n as [|n IH]; [simpl; ring|].
  rewrite seq_S, fold_left_app; simpl; simpl in IH; rewrite <- IH; ring.
Qed.
End RingSum.

Section Claims.
Context {F : Type} {SF : Scalar F}.

Lemma lifted_agrees (n : node F) (c : ctx F) :
  sum_spine n = false ->
  evaluate n c = (fst (evaluate_spec n c), res_map unwrap (snd (evaluate_spec n c))).
Proof. intro H; apply sum_spine_agrees; auto. Qed.

Lemma lifted_agrees_ring (n : node F) (c : ctx F) :
  ring_theory fzero fone fadd fmul fsub fneg (@eq F) ->
  (forall k, fof_usize k = Some (Nat.iter k (fun a : F => fadd a fone) fzero)) ->
  evaluate n c = (fst (evaluate_spec n c), res_map unwrap (snd (evaluate_spec n c))).
Proof. intros; apply all_agree; apply ring_sum_law; auto. Qed.

Lemma contains_occurs (n : node F) i : contains n i = true <-> occurs i n.
Proof.
  split.
  - induction n; simpl; intro H; try discriminate;
      repeat match goal with H : _ || _ = true |- _ => apply orb_prop in H; destruct H as [H|H] end;
      try (apply ident_eqb_eq in H; subst);
      eauto using @occurs.
  - induction 1; simpl; rewrite ?ident_eqb_refl, ?IHoccurs, ?orb_true_r; auto.
Qed.

Lemma shape_of_ctx n (c : ctx F) :
  evaluate_shape n c = (fst (f_shape (interp n) c), res_map bty_shape (snd (f_shape (interp n) c))).
Proof. unfold evaluate_shape; destruct (f_shape (interp n) c); reflexivity. Qed.

(** Two contexts that agree everywhere except at [i]. *)
Lemma independent (n : node F) i (c c' : ctx F) :
  contains n i = false -> (forall j, j <> i -> c j = c' j) ->
  (snd (evaluate n c) = snd (evaluate n c') /\
   snd (evaluate_spec n c) = snd (evaluate_spec n c') /\
   snd (evaluate_shape n c) = snd (evaluate_shape n c')) /\
  (forall j, j <> i ->
     fst (evaluate n c) j = fst (evaluate n c') j /\
     fst (evaluate_spec n c) j = fst (evaluate_spec n c') j /\
     fst (evaluate_shape n c) j = fst (evaluate_shape n c') j) /\
  (fst (evaluate n c) i = c i /\ fst (evaluate_spec n c) i = c i /\
   fst (evaluate_shape n c) i = c i).
Proof.
  intros NC AG.
  destruct (ni_all (fun j => j <> i) n) as (N1 & N2 & N3).
  { intros j Hj E; subst j; congruence. }
  destruct (frame_all n) as (F1 & F2 & F3).
  assert (NK : is_key n i = false).
  { destruct (is_key n i) eqn:K; auto; apply key_contained in K; congruence. }
  rewrite !shape_of_ctx; unfold evaluate, evaluate_spec; simpl.
  destruct (N1 c c' AG) as [A1 B1], (N2 c c' AG) as [A2 B2], (N3 c c' AG) as [A3 B3].
  split; [|split].
  - split; [exact A1|split; [exact A2|rewrite A3; reflexivity]].
  - intros j Hj; split; [apply B1; auto|split; [apply B2; auto|apply B3; auto]].
  - split; [apply F1; auto|split; [apply F2; auto|apply F3; auto]].
Qed.

Lemma shape_claim (n : node F) c c' v :
  node_wf n -> ctx_wf c -> shape_pure n = true ->
  evaluate n c = (c', Ok v) -> evaluate_shape n c = (c', Ok (vshape v)).
Proof.
  intros W Wc P H; destruct (shape_agrees n W P) as [S1 _].
  unfold evaluate_shape; rewrite (S1 c c' v Wc H); reflexivity.
Qed.

Lemma shape_error (n : node F) c c' :
  node_wf n -> ctx_wf c -> shape_pure n = true ->
  (forall s, snd (evaluate_shape n c) <> Ok s) -> forall v, evaluate n c <> (c', Ok v).
Proof.
  intros W Wc P H v E; apply shape_claim in E; auto; rewrite E in H; apply (H (vshape v)); reflexivity.
Qed.

Lemma shape_spec_claim (n : node F) c c' s :
  node_wf n -> ctx_wf c -> shape_pure n = true ->
  evaluate_spec n c = (c', Ok s) -> evaluate_shape n c = (c', Ok (spec_shape s)).
Proof.
  intros W Wc P H; destruct (shape_agrees n W P) as [_ S1].
  unfold evaluate_shape; rewrite (S1 c c' s Wc H); reflexivity.
Qed.

Lemma typed_eval (G : tenv) (n : node F) k c :
  node_wf n -> typeof G n = Some k -> ctx_ok G c ->
  ctx_ok G (fst (evaluate n c)) /\
  match snd (evaluate n c) with
  | Ok v => vwf v /\ sty_of (bty_of v) = k
  | Stuck => False
  | _ => True
  end.
Proof. intros W T O; destruct (typing_sound G n k W T) as (S1 & _ & _); exact (S1 c O). Qed.

Lemma typed_spec (G : tenv) (n : node F) k c :
  node_wf n -> typeof G n = Some k -> ctx_ok G c ->
  ctx_ok G (fst (evaluate_spec n c)) /\
  match snd (evaluate_spec n c) with
  | Ok s => spec_wf s /\ sty_of (spec_bty s) = k
  | Stuck => False
  | _ => True
  end.
Proof. intros W T O; destruct (typing_sound G n k W T) as (_ & S1 & _); exact (S1 c O). Qed.

(** Everything is reported as a value or an undefined-variable error. *)
Lemma typed_progress (G : tenv) (n : node F) k c :
  fof_total -> node_wf n -> novec G n -> square G n -> typeof G n = Some k ->
  ctx_ok G c ->
  ctx_ok G (fst (evaluate n c)) /\
  match snd (evaluate n c) with
  | Ok v => vwf v /\ sty_of (bty_of v) = k
  | Err e => exists i, err_ident e = Some i /\ uses n i /\ c i = None
  | _ => False
  end.
Proof.
  intros FT W NN SQ T O; destruct (progress G n k FT W NN SQ T) as (P1 & _ & _).
  assert (A := typed_eval G n k c W T O); assert (B := P1 c O); unfold evaluate in *.
  destruct A as [A1 A2]; split; auto; destruct (snd (f_eval (interp n) c)); auto.
Qed.

Lemma err_ident_find (c : ctx F) rs e :
  find (undef_in c) rs = Some e -> err_ident e <> None.
Proof.
  intros H E; apply find_some in H; destruct H as [_ H]; unfold undef_in in H; rewrite E in H; discriminate.
Qed.

Lemma leftmost (G : tenv) (n : node F) k c :
  fof_total -> node_wf n -> novec G n -> square G n -> typeof G n = Some k ->
  ctx_ok G c -> cache_free n = true ->
  match find (undef_in c) (reads n) with
  | Some e => evaluate n c = (c, Err e) /\ evaluate_spec n c = (c, Err e)
  | None => exists v s, evaluate n c = (c, Ok v) /\ evaluate_spec n c = (c, Ok s)
  end.
Proof.
  intros FT W NN SQ T O CF.
  destruct (progress G n k FT W NN SQ T) as (P1 & P2 & _).
  destruct (errors_all n c CF) as (E1 & E2 & _).
  destruct (cache_free_ctx n CF) as (C1 & C2 & _).
  specialize (P1 c O); specialize (P2 c O); specialize (C1 c); specialize (C2 c).
  unfold evaluate, evaluate_spec in *.
  destruct (f_eval (interp n) c) as [c1 r1], (f_spec (interp n) c) as [c2 r2]; simpl in *; subst c1 c2.
  assert (X1 : match r1 with Ok _ => find (undef_in c) (reads n) = None
                | Err e => find (undef_in c) (reads n) = Some e | _ => False end).
  { destruct r1; simpl in *; auto; destruct P1 as (i & Hi & _); destruct E1; auto; congruence. }
  assert (X2 : match r2 with Ok _ => find (undef_in c) (reads n) = None
                | Err e => find (undef_in c) (reads n) = Some e | _ => False end).
  { destruct r2; simpl in *; auto; destruct P2 as (i & Hi & _); destruct E2; auto; congruence. }
  destruct (find (undef_in c) (reads n)) as [e|].
  - destruct r1; try contradiction; try discriminate; destruct r2; try contradiction; try discriminate.
    inversion X1; inversion X2; subst; auto.
  - destruct r1; try contradiction; try discriminate; destruct r2; try contradiction; try discriminate.
    eauto.
Qed.

(** No hypotheses on types: an error is the leftmost undefined read or a shape mismatch. *)
Lemma any_error (n : node F) c :
  cache_free n = true ->
  match snd (evaluate n c) with
  | Ok _ => find (undef_in c) (reads n) = None
  | Err e => find (undef_in c) (reads n) = Some e \/ err_ident e = None
  | _ => True
  end.
Proof. intro CF; destruct (errors_all n c CF) as (E1 & _); exact E1. Qed.

Lemma cached_store (m : node F) k c c' v :
  evaluate (Cached m k) c = (c', Ok v) ->
  c' k = Some v /\
  forall d, d k = Some v ->
    evaluate (Cached m k) d = (d, Ok v) /\
    evaluate_spec (Cached m k) d = (d, Ok (Raw v)) /\
    evaluate_shape (Cached m k) d = (d, Ok (vshape v)).
Proof.
  intro H; split.
  - unfold evaluate in H; simpl in H; unfold cached_eval, read in H.
    destruct (c k) as [w|] eqn:E; [inversion H; subst; auto|].
    destruct (f_eval (interp m) c) as [c1 [w| | |]]; try discriminate.
    inversion H; subst; unfold write; rewrite ident_eqb_refl; auto.
  - intros d Hd; unfold evaluate, evaluate_spec, evaluate_shape; simpl;
      unfold default_spec, default_shape, cached_eval, read; rewrite Hd; auto.
Qed.

Lemma run1_frame c p j : c j <> None \/ is_key (snd p) j = false -> run1 c p j = c j.
Proof.
  intro H; destruct p as [m n]; destruct (frame_all n) as (F1 & F2 & F3); unfold run1; simpl in *.
  destruct m; [apply F1; auto|apply F2; auto|rewrite evaluate_shape_ctx; apply F3; auto].
Qed.

Lemma run_frame ps c j :
  c j <> None \/ (forall p, In p ps -> is_key (snd p) j = false) ->
  fold_left run1 ps c j = c j.
Proof.
  revert c; induction ps as [|p ps IH]; intros c H; simpl; auto.
  assert (E : run1 c p j = c j).
  { apply run1_frame; destruct H as [H|H]; [auto|right; apply H; simpl; auto]. }
  rewrite IH; [exact E|]; rewrite E; destruct H as [H|H]; auto; right; intros q Hq; apply H; simpl; auto.
Qed.

Lemma entry_kept ps c k v : c k = Some v -> fold_left run1 ps c k = Some v.
Proof. intro H; rewrite run_frame; auto; left; congruence. Qed.

Lemma run1_cache_free c p : cache_free (snd p) = true -> run1 c p = c.
Proof.
  intro H; destruct p as [m n]; simpl in H; destruct (cache_free_ctx n H) as (F1 & F2 & F3); unfold run1; simpl.
  destruct m; [apply F1|apply F2|rewrite evaluate_shape_ctx; apply F3].
Qed.

(** Combining vectors of different lengths. *)
Lemma div_mismatch (l r : node F) c c1 c2 xs ys :
  evaluate l c = (c1, Ok (VVec xs)) -> evaluate r c1 = (c2, Ok (VVec ys)) ->
  length xs <> length ys ->
  evaluate (Div l r) c = (c2, Err (EOutput (Incompat (Dy [length xs]) (Dy [length ys])))).
Proof.
  unfold evaluate; simpl; unfold both_eval; intros -> H NE; simpl; rewrite H; simpl.
  apply Nat.eqb_neq in NE; rewrite NE; reflexivity.
Qed.

Lemma dense_mismatch (l r : node F) c c1 c2 xs ys :
  evaluate_spec l c = (c1, Ok (Raw (VVec xs))) -> evaluate_spec r c1 = (c2, Ok (Raw (VVec ys))) ->
  length xs <> length ys ->
  evaluate (Add l r) c = (c2, Panic) /\ evaluate (Sub l r) c = (c2, Panic) /\
  evaluate (Mul l r) c = (c2, Panic).
Proof.
  unfold evaluate, evaluate_spec; simpl; intros H1 H2 NE.
  unfold eval_by_spec, both; rewrite H1; simpl; rewrite H2; simpl.
  apply Nat.eqb_neq in NE; unfold zip_dense; simpl; rewrite NE; auto.
Qed.

Lemma shape_mismatch (l r : node F) c c1 c2 x y :
  evaluate_shape l c = (c1, Ok (Dy [x])) -> evaluate_shape r c1 = (c2, Ok (Dy [y])) -> x <> y ->
  forall op, In op [@Add F; @Sub F; @Mul F; @Div F] ->
  evaluate_shape (op l r) c = (c2, Err (EOutput (Incompat (Dy [x]) (Dy [y])))).
Proof.
  intros H1 H2 NE op Hop.
  unfold evaluate_shape in *.
  destruct (f_shape (interp l) c) as [c1' r1] eqn:E1; injection H1 as -> H1.
  destruct (f_shape (interp r) c1) as [c2' r2] eqn:E2; injection H2 as -> H2.
  destruct r1 as [t1| | |]; try discriminate; destruct t1; try discriminate; injection H1 as ->.
  destruct r2 as [t2| | |]; try discriminate; destruct t2; try discriminate; injection H2 as ->.
  assert (G : both_shape (f_shape (interp l)) (f_shape (interp r)) bcast_post c =
              (c2, Err (EOutput (Incompat (Dy [x]) (Dy [y]))))).
  { unfold both_shape; rewrite E1; simpl; rewrite E2; simpl.
    apply Nat.eqb_neq in NE; unfold bcast_post, bcast_bty; simpl; rewrite NE; reflexivity. }
  simpl in Hop; destruct Hop as [<-|[<-|[<-|[<-|[]]]]]; simpl; rewrite G; reflexivity.
Qed.

Lemma zip_mismatch m (l r : node F) c c1 c2 x y i j :
  zip_like m ->
  evaluate_spec l c = (c1, Ok x) -> evaluate_spec r c1 = (c2, Ok y) ->
  spec_bty x = TV i -> spec_bty y = TV j -> i <> j ->
  both (f_spec (interp l)) (f_spec (interp r)) (fun x y => res_map_err EOutput (m x y)) c = (c2, Panic) \/
  both (f_spec (interp l)) (f_spec (interp r)) (fun x y => res_map_err EOutput (m x y)) c =
    (c2, Err (EOutput (Incompat (Dy [i]) (Dy [j])))).
Proof.
  unfold evaluate_spec; intros Z H1 H2 Tx Ty NE; unfold both; rewrite H1; simpl; rewrite H2; simpl.
  assert (Wx : spec_wf x) by (destruct x as [[]| |]; simpl in *; subst; simpl; auto; discriminate).
  assert (Wy : spec_wf y) by (destruct y as [[]| |]; simpl in *; subst; simpl; auto; discriminate).
  specialize (Z x y Wx Wy); rewrite Tx, Ty in Z; unfold bcast_bty in Z; simpl in Z.
  apply Nat.eqb_neq in NE; rewrite NE in Z; simpl in Z.
  destruct Z as [-> | ->]; auto.
Qed.

Lemma any_mismatch (l r : node F) c c1 c2 x y i j :
  evaluate_spec l c = (c1, Ok x) -> evaluate_spec r c1 = (c2, Ok y) ->
  spec_bty x = TV i -> spec_bty y = TV j -> i <> j ->
  forall op, In op [@Add F; @Sub F; @Mul F] ->
  evaluate (op l r) c = (c2, Panic) \/
  evaluate (op l r) c = (c2, Err (EOutput (Incompat (Dy [i]) (Dy [j])))).
Proof.
  intros H1 H2 Tx Ty NE op Hop.
  simpl in Hop; destruct Hop as [<-|[<-|[<-|[]]]]; unfold evaluate; simpl; unfold eval_by_spec.
  - destruct (zip_mismatch add_match l r c c1 c2 x y i j add_like H1 H2 Tx Ty NE) as [-> | ->]; auto.
  - destruct (zip_mismatch sub_match l r c c1 c2 x y i j sub_like H1 H2 Tx Ty NE) as [-> | ->]; auto.
  - destruct (zip_mismatch mul_match l r c c1 c2 x y i j mul_like H1 H2 Tx Ty NE) as [-> | ->]; auto.
Qed.

End Claims.

(** Witnesses and examples. *)
Lemma float_sum_differs : exists n : node f64, forall pow lib c,
  let S := f64_scalar pow lib in
  exists v w, snd (evaluate n c) = Ok v /\ res_map unwrap (snd (evaluate_spec n c)) = Ok w /\
              v <> w.
Proof.
  exists (Sum (ConstSpec (Full (TA [10]) (S754_finite false 7205759403792794 (-56))))).
  intros pow lib c.
  exists (VScal (S754_finite false 9007199254740991 (-53))),
         (VScal (S754_finite false 4503599627370496 (-52))).
  split; [vm_compute; reflexivity|split; [vm_compute; reflexivity|discriminate]].
Qed.

Lemma u8_sum_differs : exists n : node Z, forall c,
  let S := wrapping_int false 8 in
  snd (evaluate n c) = Ok (VScal 0%Z) /\ snd (evaluate_spec n c) = Panic.
Proof. exists (Sum (ConstSpec (Full (TA [300]) 0%Z))); intro c; split; vm_compute; reflexivity. Qed.

Lemma cached_sum_shape : exists (n : node Z) c v,
  let S := Z_scalar in
  node_wf n /\ ctx_wf c /\ snd (evaluate n c) = Ok v /\
  snd (evaluate_shape n c) = Err (ERight (Undefined 1)).
Proof.
  exists (Add (Sum (Cached (Var 0) 1)) (Var 1)).
  exists (fun i => match i with 0 => Some (VScal 5%Z) | _ => None end).
  exists (VScal 10%Z); split; [simpl; auto|split; [|split; reflexivity]].
  intros [|i] v E; inversion E; subst; simpl; auto.
Qed.

Lemma undefined_example :
  let S := Z_scalar in
  let n := Add (Un Double (Var 0)) (Mul (Var 1) (Var 2)) in
  let G := fun i => if i <? 3 then Some KS else None in
  let c := fun i => match i with 0 => Some (VScal 5%Z) | _ => None end in
  fof_total /\ node_wf n /\ novec G n /\ square G n /\ typeof G n = Some KS /\
  ctx_ok G c /\ cache_free n = true /\
  find (undef_in c) (reads n) = Some (ERight (ELeft (Undefined 1))) /\
  snd (evaluate n c) = Err (ERight (ELeft (Undefined 1))).
Proof.
  split; [intro; discriminate|].
  split; [simpl; auto|]; split; [repeat split; discriminate|]; split; [simpl; auto|]; split; [reflexivity|].
  split; [|split; [reflexivity|split; reflexivity]].
  intros [|i] v E; inversion E; subst; simpl; auto.
Qed.

Lemma undefined_panics : exists (n : node Z) (G : tenv) c,
  let S := Z_scalar in
  typeof G n <> None /\ ctx_ok G c /\ cache_free n = true /\
  find (undef_in c) (reads n) = Some (ERight (Undefined 2)) /\
  snd (evaluate n c) = Panic.
Proof.
  exists (Add (Add (Var 0) (Var 1)) (Var 2)), (fun _ => Some KV).
  exists (fun i => match i with
                   | 0 => Some (VVec [1; 2]%Z) | 1 => Some (VVec [1; 2; 3]%Z) | _ => None end).
  split; [discriminate|split; [|split; [reflexivity|split; reflexivity]]].
  intros [|[|i]] v E; inversion E; subst; simpl; auto.
Qed.

Lemma typed_panics : exists (n : node Z) (G : tenv) c,
  let S := Z_scalar in
  node_wf n /\ typeof G n = Some (KA [3]) /\ ctx_ok G c /\ snd (evaluate n c) = Panic.
Proof.
  exists (Contract 1 (Var 0) (Var 1)).
  exists (fun i => match i with 0 => Some (KA [2; 3]) | _ => Some (KA [2]) end).
  exists (fun i => match i with
     | 0 => Some (VArr [2; 3] (AN [AN [AF 1; AF 2; AF 3]; AN [AF 1; AF 2; AF 3]]%Z))
     | 1 => Some (VArr [2] (AN [AF 1; AF 2]%Z)) | _ => None end).
  split; [simpl; auto|split; [reflexivity|split; [|reflexivity]]].
  intros [|[|i]] v E; inversion E; subst; simpl; repeat constructor.
Qed.

Lemma typed_example :
  let S := Z_scalar in
  let n := Contract 1 (Var 0) (Cached (Un Double (Var 1)) 2) in
  let G := fun i => match i with 0 | 1 | 2 => Some (KA [2]) | _ => None end in
  let v := VArr [2] (AN [AF 3%Z; AF 4%Z]) in
  let c := fun i => match i with 0 | 1 => Some v | _ => None end in
  fof_total /\ node_wf n /\ novec G n /\ square G n /\ typeof G n = Some KS /\
  ctx_ok G c /\ snd (evaluate n c) = Ok (VScal 50%Z).
Proof.
  split; [intro; discriminate|].
  split; [simpl; auto|]; split; [split; discriminate|]; split.
  - simpl; split; auto; split; auto; intros kl kr E1 E2; inversion E1; inversion E2; subst; simpl; auto.
  - split; [reflexivity|]; split; [|reflexivity].
    intros [|[|i]] v E; inversion E; subst; simpl; repeat constructor.
Qed.

Lemma add_mismatch : exists (l r : node Z) c xs ys,
  let S := Z_scalar in
  snd (evaluate l c) = Ok (VVec xs) /\ snd (evaluate r c) = Ok (VVec ys) /\
  length xs <> length ys /\ snd (evaluate (Add l r) c) = Panic.
Proof.
  exists (Var 0), (Var 1).
  exists (fun i => match i with 0 => Some (VVec [1; 2]%Z) | _ => Some (VVec [1; 2; 3]%Z) end).
  exists [1; 2]%Z, [1; 2; 3]%Z; split; [reflexivity|split; [reflexivity|split; [discriminate|reflexivity]]].
Qed.
