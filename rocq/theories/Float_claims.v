(** Accuracy of evaluation in f64, in the form used by Properties_float.v. *)
From Coq Require Import List Arith ZArith Reals SpecFloat Bool Lia Lra.
Import ListNotations.
From Verif Require Import Base Shapes Scalar Buffers Spec Contraction Node Eval Types Instances
  Vocab Math Code_math Float_math Index_facts Buffers_facts Spec_facts Contraction_facts
  Contraction_entries Match_facts Eval_facts Progress_facts Math_facts Code_claims Float_facts.

(** Dimensions agree wherever evaluation succeeds. *)
Section Agree.
Context {F : Type} {SF : Scalar F}.

Definition inner_fits (a b : list nat) : Prop :=
  match a, b with
  | [n], [n'] => n = n'
  | [n; m], [n'] => n = n' /\ m <= n
  | [n], [n'; m] => n = n' /\ m <= n
  | [n; z], [z'; m] => z = z'
  | _, _ => False
  end.

Fixpoint agrees (c : ctx F) (n : node F) : Prop :=
  match n with
  | Un _ m | Sum m => agrees c m
  | Power l r => agrees c l /\ agrees c r /\ tdims (steps c l) = [] /\ tdims (steps c r) = []
  | Add l r | Sub l r | Mul l r | Div l r =>
      agrees c l /\ agrees c r /\
      (tdims (steps c l) = [] \/ tdims (steps c r) = [] \/ tdims (steps c l) = tdims (steps c r))
  | Contract 0 l r => agrees c l /\ agrees c r
  | Contract _ l r => agrees c l /\ agrees c r /\ inner_fits (tdims (steps c l)) (tdims (steps c r))
  | _ => True
  end.

Lemma zip_dims op (x y v : value F) a b :
  vwf x -> vwf y -> holds x a -> holds y b -> zip_map_id op x y = Ok v ->
  tdims a = [] \/ tdims b = [] \/ tdims a = tdims b.
Proof.
  intros Wx Wy [Dx _] [Dy _] H; rewrite zip_id_eq in H by auto.
  assert (Bx := vwf_bty _ Wx); assert (By := vwf_bty _ Wy).
  rewrite bcast_bty_table in H by auto; rewrite <- Dx, <- Dy; unfold vshape.
  destruct (bty_of x) as [| |n|ds], (bty_of y) as [| |m|ds']; try discriminate; auto.
  - destruct (Nat.eqb n m) eqn:E; [|discriminate]; apply Nat.eqb_eq in E; subst; auto.
  - destruct (dims_eqb ds ds') eqn:E; [|discriminate].
    right; right; cbn; apply dims_eqb_eq; exact E.
Qed.

Lemma contract_dims axes (x y v : value F) a b :
  vwf x -> vwf y -> holds x a -> holds y b -> (tdims a <> [] \/ tdims b <> []) ->
  contract (S axes) x y = Ok v -> inner_fits (tdims a) (tdims b).
Proof.
  intros Wx Wy [Dx _] [Dy _] NS H.
  rewrite (value_eta fzero x Wx), (value_eta fzero y Wy) in H.
  destruct (contract_bty (S axes) (bty_of x) (bty_of y)) as [t|] eqn:C.
  2:{ exfalso; clear - C H; destruct axes as [|?]; [|discriminate];
        destruct (bty_of x) as [| |?|[|? [|? [|? ?]]]], (bty_of y) as [| |?|[|? [|? [|? ?]]]];
        cbn [contract_bty build contract] in *; try discriminate; destruct (Nat.eqb _ _); discriminate. }
  destruct (narrow (S axes) (bty_of x) (bty_of y)) eqn:N.
  2:{ rewrite (contract_wide _ _ _ _ _ _ C N) in H; discriminate. }
  rewrite <- Dx, <- Dy in NS |- *; unfold vshape in *; clear - C N NS.
  destruct axes as [|axes]; [|discriminate].
  destruct (bty_of x) as [| |?|[|? [|? [|? ?]]]], (bty_of y) as [| |?|[|? [|? [|? ?]]]];
    try discriminate; cbn in *; try (destruct NS; congruence);
    destruct (Nat.eqb _ _) eqn:Q in C; try discriminate; apply Nat.eqb_eq in Q;
    try apply Nat.leb_le in N; auto.
Qed.

Lemma both_inv c c' l r (m : spec F -> spec F -> res err (spec F)) v :
  faithful c l -> faithful c r ->
  eval_by_spec (both (f_spec (interp l)) (f_spec (interp r)) m) c = (c', Ok v) ->
  exists x y s, f_eval (interp l) c = (c, Ok x) /\ f_eval (interp r) c = (c, Ok y) /\
    vwf x /\ vwf y /\ holds x (steps c l) /\ holds y (steps c r) /\ m (Raw x) (Raw y) = Ok s.
Proof.
  intros (rl & El & Sl & Pl) (rr & Er & Sr & Pr); unfold eval_by_spec, both; rewrite Sl.
  destruct rl as [x|e| |]; cbn [res_map res_map_err]; try discriminate; rewrite Sr.
  destruct rr as [y|e| |]; cbn [res_map res_map_err]; try discriminate.
  destruct (Pl x eq_refl) as [Wx Hx], (Pr y eq_refl) as [Wy Hy].
  destruct (m (Raw x) (Raw y)) as [s|e| |] eqn:M; cbn [res_map]; try discriminate; intros _.
  exists x, y, s; repeat (split; [assumption|]); exact M.
Qed.

Lemma evaluate_agrees (c : ctx F) n : ctx_wf c ->
  forall c' v, node_wf n -> written c n -> f_eval (interp n) c = (c', Ok v) -> agrees c n.
Proof.
  intro Wc.
  assert (Z : forall op (x y : value F) s a b, vwf x -> vwf y -> holds x a -> holds y b ->
    res_map_err EOutput (zip_dense op (Raw x) (Raw y)) = @Ok err _ s ->
    tdims a = [] \/ tdims b = [] \/ tdims a = tdims b).
  { intros op x y s a b Wx Wy Hx Hy Q; apply map_err_ok in Q; unfold zip_dense in Q; cbn [unwrap] in Q.
    destruct (zip_map_id op x y) as [z| | |] eqn:E; try discriminate Q.
    exact (zip_dims op x y z a b Wx Wy Hx Hy E). }
  induction n; intros c' w W Hw H; try exact I; try contradiction.
  - destruct (written_faithful c n Wc W Hw) as (r & Ev & _ & _).
    cbn [interp unary_fn f_eval] in H; rewrite Ev in H; destruct r; try discriminate; exact (IHn _ _ W Hw Ev).
  - destruct (written_faithful c n Wc W Hw) as (r & Ev & _ & _).
    cbn [interp sum_fn f_eval] in H; rewrite Ev in H; destruct r; try discriminate; exact (IHn _ _ W Hw Ev).
  - destruct W as [W1 W2], Hw as [E1 E2].
    destruct (both_inv _ _ _ _ _ _ (written_faithful c _ Wc W1 E1) (written_faithful c _ Wc W2 E2) H)
      as (x & y & s & Ex & Ey & Wx & Wy & Hx & Hy & M).
    split; [exact (IHn1 _ _ W1 E1 Ex)|split; [exact (IHn2 _ _ W2 E2 Ey)|]].
    destruct Hx as [Dx _], Hy as [Dy _]; rewrite <- Dx, <- Dy.
    destruct x, y; try discriminate M; split; reflexivity.
  - destruct W as [W1 W2], Hw as [E1 E2].
    destruct (both_inv _ _ _ _ _ _ (written_faithful c _ Wc W1 E1) (written_faithful c _ Wc W2 E2) H)
      as (x & y & s & Ex & Ey & Wx & Wy & Hx & Hy & M).
    split; [exact (IHn1 _ _ W1 E1 Ex)|split; [exact (IHn2 _ _ W2 E2 Ey)|exact (Z _ _ _ _ _ _ Wx Wy Hx Hy M)]].
  - destruct W as [W1 W2], Hw as [E1 E2].
    destruct (both_inv _ _ _ _ _ _ (written_faithful c _ Wc W1 E1) (written_faithful c _ Wc W2 E2) H)
      as (x & y & s & Ex & Ey & Wx & Wy & Hx & Hy & M).
    split; [exact (IHn1 _ _ W1 E1 Ex)|split; [exact (IHn2 _ _ W2 E2 Ey)|exact (Z _ _ _ _ _ _ Wx Wy Hx Hy M)]].
  - destruct W as [W1 W2], Hw as [E1 E2].
    destruct (both_inv _ _ _ _ _ _ (written_faithful c _ Wc W1 E1) (written_faithful c _ Wc W2 E2) H)
      as (x & y & s & Ex & Ey & Wx & Wy & Hx & Hy & M).
    split; [exact (IHn1 _ _ W1 E1 Ex)|split; [exact (IHn2 _ _ W2 E2 Ey)|exact (Z _ _ _ _ _ _ Wx Wy Hx Hy M)]].
  - destruct W as [W1 W2], Hw as [E1 E2].
    destruct (written_faithful c _ Wc W1 E1) as (rl & Ev1 & _ & P1), (written_faithful c _ Wc W2 E2) as (rr & Ev2 & _ & P2).
    cbn [interp div_fn f_eval] in H; unfold both_eval in H; rewrite Ev1 in H.
    destruct rl as [x|e| |]; cbn [res_map_err] in H; try discriminate; rewrite Ev2 in H.
    destruct rr as [y|e| |]; cbn [res_map_err] in H; try discriminate.
    destruct (P1 x eq_refl) as [Wx Hx], (P2 y eq_refl) as [Wy Hy].
    split; [exact (IHn1 _ _ W1 E1 Ev1)|split; [exact (IHn2 _ _ W2 E2 Ev2)|]].
    apply (f_equal snd) in H; cbn [snd] in H; apply map_err_ok in H.
    exact (zip_dims fdiv x y w _ _ Wx Wy Hx Hy H).
  - destruct W as [W1 W2], Hw as (E1 & E2 & NS).
    destruct (both_inv _ _ _ _ _ _ (written_faithful c _ Wc W1 E1) (written_faithful c _ Wc W2 E2) H)
      as (x & y & s & Ex & Ey & Wx & Wy & Hx & Hy & M).
    assert (A1 := IHn1 _ _ W1 E1 Ex); assert (A2 := IHn2 _ _ W2 E2 Ey).
    destruct axes as [|axes]; [split; assumption|split; [assumption|split; [assumption|]]].
    apply map_err_ok in M.
    assert (NS' : bty_of x <> TS \/ bty_of y <> TS).
    { destruct Hx as [Dx _], Hy as [Dy _]; rewrite <- Dx, <- Dy in NS; unfold vshape in NS.
      destruct NS as [NS|NS]; [left|right]; intro T; apply NS; rewrite T; reflexivity. }
    destruct (contract_raw (S axes) x y s Wx Wy NS' M) as (v & -> & Cv).
    exact (contract_dims axes x y v _ _ Wx Wy Hx Hy NS Cv).
Qed.
End Agree.

Local Open Scope R_scope.

(** Formats: precision and largest exponent. *)
Section Formats.
Context {prec emax : Z} {Fm : Format prec emax}.
Notation rnd := (Float_facts.rnd prec emax).
Notation uro := (Float_facts.uro prec).
Notation uro_pos := (Float_facts.uro_pos (prec := prec)).
Notation fvalid := (float_valid prec emax).
Notation foz := (float_of_Z prec emax).

(** Induction over expressions: floats [x] against real values [e] and magnitudes [a]. *)
Section Follow.
Variables (pow : f64 -> f64 -> f64) (lib : libfn -> f64 -> f64) (inf : R) (sp : libfn -> R -> R).
#[local] Instance s64 : Scalar f64 := float_scalar prec emax pow lib.

Variable P : nat -> f64 -> R -> R -> Prop.
Variable M : f64 -> f64 -> Prop.
Variable B : R -> Prop.
Hypothesis P_le : forall k l x e a, P k x e a -> (k <= l)%nat -> P l x e a.
Hypothesis P_nonneg : forall k x e a, P k x e a -> 0 <= a.
Hypothesis B_down : forall a b, 0 <= a <= b -> B b -> B a.
Hypothesis P_zero : P 0 f64_zero 0 0.
Hypothesis P_one : P 0 (foz 1) 1 1.
Hypothesis P_from_zero : forall k x e a, P k x e a -> P k (SFadd prec emax f64_zero x) (0 + e) (0 + a).
Hypothesis P_add : forall k x e a y f b, P k x e a -> P k y f b -> B (a + b) ->
  P (S k) (SFadd prec emax x y) (e + f) (a + b).
Hypothesis P_sub : forall k x e a y f b, P k x e a -> P k y f b -> B (a + b) ->
  P (S k) (SFsub prec emax x y) (e - f) (a + b).
Hypothesis P_mul : forall k l x e a y f b, P k x e a -> P l y f b -> M x y -> B (a * b) ->
  P (S (k + l)) (SFmul prec emax x y) (e * f) (a * b).
Hypothesis P_double : forall k x e a, P k x e a -> B ((1 + 1) * a) ->
  P k (SFmul prec emax (SFadd prec emax (foz 1) (foz 1)) x) ((1 + 1) * e) ((1 + 1) * a).
Hypothesis P_neg : forall k x e a, P k x e a -> P k (SFopp x) (- e) a.
Hypothesis P_abs : forall k x e a, P k x e a -> P k (SFabs x) (Rabs e) a.
Hypothesis M_sym : forall x y, M x y -> M y x.
Hypothesis B_rabbit : forall a, 0 <= a -> B (a * (1 + a)) -> B (1 + a).

Variable c : ctx f64.

Definition follows (k : nat) (t : tensor f64) (e a : tensor R) : Prop :=
  tdims e = tdims t /\ tdims a = tdims t /\
  forall ix, in_box (tdims t) ix -> P k (tat t ix) (tat e ix) (tat a ix).

(** [B] of every magnitude in the tree, [M] of the factors of every product. *)
Fixpoint guarded (n : node f64) : Prop :=
  (forall ix, in_box (tdims (magnitude c n)) ix -> B (tat (magnitude c n) ix)) /\
  match n with
  | Un Rabbit m =>
      guarded m /\
      forall ix, in_box (tdims (steps c m)) ix ->
        M (tat (steps c m) ix) (fsub fone (tat (steps c m) ix))
  | Un _ m | Sum m => guarded m
  | Add l r | Sub l r => guarded l /\ guarded r
  | Mul l r =>
      guarded l /\ guarded r /\
      forall ix, in_box (tdims (steps c n)) ix -> M (at_bc (steps c l) ix) (at_bc (steps c r) ix)
  | Contract axes l r =>
      guarded l /\ guarded r /\
      forall ix jx, in_box (tdims (steps c l)) ix -> in_box (tdims (steps c r)) jx ->
        (axes = 0%nat \/ last ix 0%nat = hd 0%nat jx) ->
        M (tat (steps c l) ix) (tat (steps c r) jx)
  | _ => True
  end.

Definition leaf_ok (v : value f64) : Prop :=
  entries_all (fun x => P 0 x (f64_real x) (Rabs (f64_real x))) v.

Lemma sum_grows (A : Type) (h : A -> R) l : (forall i, In i l -> 0 <= h i) ->
  forall z, z <= fold_left (fun a i => a + h i) l z.
Proof.
  induction l as [|i l IH]; intros H z; simpl; [lra|].
  apply Rle_trans with (z + h i); [assert (K := H i (or_introl eq_refl)); lra|].
  apply IH; intros j Hj; apply H; right; exact Hj.
Qed.

Lemma sum_tail (A : Type) k (f : A -> f64) (g h : A -> R) l :
  (forall i, In i l -> P k (f i) (g i) (h i)) ->
  forall j x e a, P (k + j) x e a -> B (fold_left (fun a i => a + h i) l a) ->
  P (k + (j + length l))
    (fold_left (fun a i => SFadd prec emax a (f i)) l x)
    (fold_left (fun a i => a + g i) l e) (fold_left (fun a i => a + h i) l a).
Proof.
  induction l as [|i l IH]; intros H j x e a Hx Hb; cbn [fold_left length] in *.
  - rewrite Nat.add_0_r; exact Hx.
  - assert (Hi := H i (or_introl eq_refl)).
    assert (Hl : forall i0, In i0 l -> P k (f i0) (g i0) (h i0)) by (intros; apply H; right; assumption).
    replace (j + S (length l))%nat with (S j + length l)%nat by lia.
    apply IH; auto.
    replace (k + S j)%nat with (S (k + j)) by lia; apply P_add; auto.
    + eapply P_le; [exact Hi|lia].
    + apply (B_down _ (fold_left (fun a i => a + h i) l (a + h i))); [|exact Hb].
      assert (0 <= a) by (eapply P_nonneg; exact Hx); assert (0 <= h i) by (eapply P_nonneg; exact Hi).
      split; [lra|]; apply sum_grows; intros i0 Hi0; eapply P_nonneg; apply Hl; exact Hi0.
Qed.

Lemma sum_follows (A : Type) k (f : A -> f64) (g h : A -> R) l :
  (forall i, In i l -> P k (f i) (g i) (h i)) ->
  B (@sum_over R size_scalar A l h) ->
  P (k + (length l - 1)) (@sum_over f64 s64 A l f) (@sum_over R (R_scalar inf sp) A l g)
    (@sum_over R size_scalar A l h).
Proof.
  intros H Hb; unfold sum_over in *; cbn [fadd fzero s64 float_scalar R_scalar size_scalar] in *.
  destruct l as [|i l]; cbn [fold_left length] in *.
  - eapply P_le; [apply P_zero|lia].
  - replace (S (length l) - 1)%nat with (0 + length l)%nat by lia.
    apply sum_tail; auto.
    + intros j Hj; apply H; right; exact Hj.
    + rewrite Nat.add_0_r; apply P_from_zero, H; left; reflexivity.
Qed.

Lemma vat_vmap (A C : Type) (d : A) (d' : C) (g : A -> C) v ix :
  vwf v -> in_box (dims (vshape v)) ix -> vat d' (vmap g v) ix = g (vat d v ix).
Proof.
  intros W Bx; rewrite (value_eta d v W) at 1; rewrite vmap_build, vat_build; auto.
Qed.

Lemma leaf_follows v : vwf v -> leaf_ok v ->
  follows 0 (tensor_of v) (@tensor_of R (R_scalar inf sp) (vmap f64_real v))
    (@tensor_of R size_scalar (vmap (fun x => Rabs (f64_real x)) v)).
Proof.
  intros W L; unfold follows, tensor_of; cbn [tdims tat]; unfold vshape; rewrite !vmap_bty.
  split; [reflexivity|split; [reflexivity|]]; intros ix Bx.
  rewrite !(vat_vmap _ _ fzero) by assumption; apply L; exact Bx.
Qed.

Lemma in_box_app a b ix : in_box (a ++ b)%list ix ->
  in_box a (firstn (length a) ix) /\ in_box b (skipn (length a) ix).
Proof.
  revert ix; induction a as [|x a IH]; intros ix H; simpl in *.
  - split; [apply in_box_nil; reflexivity|exact H].
  - apply in_box_cons in H; destruct H as (i & ix' & -> & Hi & H); simpl.
    destruct (IH _ H) as [H1 H2]; split; [|exact H2].
    apply in_box_cons; eauto.
Qed.

(** Pointwise operations. *)
Lemma pointwise_follows k l m (op : f64 -> f64 -> f64) (ope opa : R -> R -> R)
  (ta tb : tensor f64) (ea eb aa ab : tensor R) :
  follows k ta ea aa -> follows l tb eb ab ->
  (tdims ta = [] \/ tdims tb = [] \/ tdims ta = tdims tb) ->
  (forall ix x e a y f b, in_box (tdims (pointwise op ta tb)) ix ->
     x = at_bc ta ix -> y = at_bc tb ix -> a = at_bc aa ix -> b = at_bc ab ix ->
     P k x e a -> P l y f b -> P m (op x y) (ope e f) (opa a b)) ->
  follows m (pointwise op ta tb) (pointwise ope ea eb) (pointwise opa aa ab).
Proof.
  intros (De & Da & H) (De' & Da' & H') D K.
  unfold follows, pointwise; cbn [tdims tat]; rewrite De, Da, De', Da'.
  split; [reflexivity|split; [reflexivity|]]; intros ix Bx.
  assert (B1 : in_box (tdims ta) (match tdims ta with [] => [] | _ => ix end)).
  { destruct (tdims ta); [apply in_box_nil; reflexivity|exact Bx]. }
  assert (B2 : in_box (tdims tb) (match tdims tb with [] => [] | _ => ix end)).
  { destruct (tdims tb) eqn:E; [apply in_box_nil; reflexivity|].
    destruct (tdims ta) eqn:E1; [exact Bx|]; destruct D as [D|[D|D]]; try discriminate; rewrite <- D; exact Bx. }
  apply (K ix); auto.
  - unfold at_bc; rewrite De; replace (tat aa _) with (tat aa (match tdims ta with [] => [] | _ => ix end))
      by (rewrite Da; reflexivity); apply H; exact B1.
  - unfold at_bc; rewrite De'; replace (tat ab _) with (tat ab (match tdims tb with [] => [] | _ => ix end))
      by (rewrite Da'; reflexivity); apply H'; exact B2.
Qed.

Lemma crossed_follows k l m (op : f64 -> f64 -> f64) (ope opa : R -> R -> R) (Q : f64 -> f64 -> Prop)
  (ta tb : tensor f64) (ea eb aa ab : tensor R) :
  follows k ta ea aa -> follows l tb eb ab ->
  (tdims ta = [] \/ tdims tb = [] \/ tdims ta = tdims tb) ->
  (forall x e a y f b, Q x y -> P k x e a -> P l y f b -> B (opa a b) -> P m (op x y) (ope e f) (opa a b)) ->
  (forall x e a y f b, Q x y -> P k x e a -> P l y f b -> B (opa b a) -> P m (op y x) (ope f e) (opa b a)) ->
  (forall ix, in_box (tdims (crossed op ta tb)) ix -> Q (at_bc ta ix) (at_bc tb ix)) ->
  (forall ix, in_box (tdims (crossed opa aa ab)) ix -> B (tat (crossed opa aa ab) ix)) ->
  follows m (crossed op ta tb) (crossed ope ea eb) (crossed opa aa ab).
Proof.
  intros H1 H2 D K1 K2 HQ HB.
  assert (G : forall dx dy, tdims ta = dx -> tdims tb = dy ->
    follows m (crossed op ta tb) (crossed ope ea eb) (crossed opa aa ab)).
  2:{ eapply G; reflexivity. }
  intros dx dy Dx Dy; unfold crossed in *.
  assert (E1 := H1); assert (E2 := H2); destruct E1 as (De & Da & _), E2 as (De' & Da' & _).
  rewrite De, De', Da, Da' in *; rewrite Dx, Dy in *.
  assert (N1 : forall ix, in_box (tdims (pointwise op ta tb)) ix -> in_box (tdims (pointwise opa aa ab)) ix).
  { unfold pointwise; cbn [tdims]; rewrite Da, Da', ?Dx, ?Dy; auto. }
  destruct dx as [|d dx]; [destruct dy as [|d1 [|d2 dy]]|].
  3:{ apply (pointwise_follows k l m (fun x y => op y x) (fun x y => ope y x) (fun x y => opa y x)
               ta tb ea eb aa ab H1 H2); [left; exact Dx|].
      intros ix x e a y f b Bx -> -> -> -> P1 P2; apply K2; auto.
      apply (HB ix); exact (N1 _ Bx). }
  all: apply (pointwise_follows k l m op ope opa ta tb ea eb aa ab H1 H2); [rewrite Dx, Dy; auto|];
       intros ix x e a y f b Bx -> -> -> -> P1 P2; apply K1; auto; apply (HB ix); exact (N1 _ Bx).
Qed.

Lemma outer_follows k l (ta tb : tensor f64) (ea eb aa ab : tensor R) :
  follows k ta ea aa -> follows l tb eb ab ->
  (forall ix jx, in_box (tdims ta) ix -> in_box (tdims tb) jx -> M (tat ta ix) (tat tb jx)) ->
  (forall ix, in_box (tdims (@outer_steps R size_scalar aa ab)) ix ->
     B (tat (@outer_steps R size_scalar aa ab) ix)) ->
  follows (S (k + l)) (outer_steps ta tb) (@outer_steps R (R_scalar inf sp) ea eb)
    (@outer_steps R size_scalar aa ab).
Proof.
  intros (De & Da & H) (De' & Da' & H') HM HB; unfold outer_steps in *; rewrite De, Da in *.
  destruct (tdims ta) as [|d ds] eqn:Dx.
  - unfold follows; cbn [tdims tat] in *; rewrite De', Da' in *.
    split; [reflexivity|split; [reflexivity|]]; intros ix Bx.
    rewrite Nat.add_comm; apply P_mul.
    + apply H'; exact Bx.
    + apply H, in_box_nil; reflexivity.
    + apply M_sym, HM; [apply in_box_nil; reflexivity|exact Bx].
    + exact (HB ix Bx).
  - unfold follows, outer in *; cbn [tdims tat] in *; rewrite De, De', Da, Da', Dx in *.
    split; [reflexivity|split; [reflexivity|]]; intros ix Bx.
    assert (K := in_box_app _ _ _ Bx); destruct K as [B1 B2].
    apply P_mul; auto; exact (HB ix Bx).
Qed.

(** One entry of an inner product. *)
Lemma dot_follows k l n (f f' : nat -> f64) (g g' h h' : nat -> R) :
  (forall i, (i < n)%nat -> P k (f i) (g i) (h i)) -> (forall i, (i < n)%nat -> P l (f' i) (g' i) (h' i)) ->
  (forall i, (i < n)%nat -> M (f i) (f' i)) ->
  B (@sum_over R size_scalar nat (seq 0 n) (fun i => h i * h' i)) ->
  P (k + l + n) (@sum_over f64 s64 nat (seq 0 n) (fun i => SFmul prec emax (f i) (f' i)))
    (@sum_over R (R_scalar inf sp) nat (seq 0 n) (fun i => g i * g' i))
    (@sum_over R size_scalar nat (seq 0 n) (fun i => h i * h' i)).
Proof.
  intros H H' HM Hb.
  assert (HB : forall i, (i < n)%nat -> B (h i * h' i)).
  { intros i Hi; apply (B_down _ (@sum_over R size_scalar nat (seq 0 n) (fun i => h i * h' i))); auto.
    assert (N : forall j, (j < n)%nat -> 0 <= h j * h' j).
    { intros j Hj; apply Rmult_le_pos; eapply P_nonneg; [apply H|apply H']; exact Hj. }
    split; [auto|].
    unfold sum_over; cbn [fadd fzero size_scalar].
    assert (I : In i (seq 0 n)) by (apply in_seq; lia).
    destruct (in_split _ _ I) as (l1 & l2 & E).
    assert (N' : forall j, In j (l1 ++ i :: l2)%list -> 0 <= h j * h' j).
    { intros j Hj; rewrite <- E in Hj; apply in_seq in Hj; apply N; lia. }
    rewrite E, fold_left_app; cbn [fold_left].
    apply Rle_trans with (fold_left (fun a j => a + h j * h' j) l1 0 + h i * h' i).
    + assert (K := sum_grows nat (fun j => h j * h' j) l1); cbn beta in K.
      assert (0 <= fold_left (fun a j => a + h j * h' j) l1 0).
      { apply K; intros j Hj; apply N', in_or_app; left; exact Hj. }
      lra.
    + apply (sum_grows nat (fun j => h j * h' j)); intros j Hj; apply N', in_or_app; right; right; exact Hj. }
  destruct n as [|n'].
  { eapply P_le; [apply P_zero|lia]. }
  replace (k + l + S n')%nat with (S (k + l) + (length (seq 0 (S n')) - 1))%nat by (rewrite seq_length; lia).
  apply sum_follows; auto.
  intros i Hi; apply in_seq in Hi; apply P_mul; [apply H|apply H'|apply HM|apply HB]; lia.
Qed.

Lemma inner_follows k l (ta tb : tensor f64) (ea eb aa ab : tensor R) :
  follows k ta ea aa -> follows l tb eb ab -> inner_fits (tdims ta) (tdims tb) ->
  (forall ix jx, in_box (tdims ta) ix -> in_box (tdims tb) jx -> last ix 0%nat = hd 0%nat jx ->
     M (tat ta ix) (tat tb jx)) ->
  (forall ix, in_box (tdims (@inner_steps R size_scalar aa ab)) ix ->
     B (tat (@inner_steps R size_scalar aa ab) ix)) ->
  follows (k + l + depth ta tb) (inner_steps ta tb) (@inner_steps R (R_scalar inf sp) ea eb)
    (@inner_steps R size_scalar aa ab).
Proof.
  intros (De & Da & H) (De' & Da' & H') Fi HM HB; unfold inner_steps, depth, inner in *.
  rewrite De, De', Da, Da' in *.
  destruct (tdims ta) as [|n [|m [|? ?]]] eqn:Dx, (tdims tb) as [|n' [|m' [|? ?]]] eqn:Dy; try contradiction;
    cbn [inner_fits last removelast tl length] in *; unfold follows; cbn [tdims tat app] in *;
    (split; [reflexivity|split; [reflexivity|]]); intros ix Bx.
  - subst n'; apply in_box_nil in Bx; subst ix; cbn [length Nat.sub firstn skipn app] in *.
    apply dot_follows; intros; try apply H; try apply H'; try apply HM; try reflexivity;
      try (apply in_box_cons; eexists; eexists; split; [reflexivity|split; [lia|apply in_box_nil; reflexivity]]).
    apply (HB []); apply in_box_nil; reflexivity.
  - destruct Fi as [-> Le]; apply box1_inv in Bx; destruct Bx as (i & -> & Hi); cbn [nth] in *.
    apply dot_follows; intros; try apply H; try apply H'; try apply HM; try reflexivity;
      try (repeat constructor; lia).
    apply (HB [i]); repeat constructor; lia.
  - destruct Fi as [-> Le]; apply box1_inv in Bx; destruct Bx as (i & -> & Hi); cbn [nth] in *.
    apply dot_follows; intros; try apply H; try apply H'; try apply HM; try reflexivity;
      try (repeat constructor; lia).
    apply (HB [i]); repeat constructor; lia.
  - subst n'; apply box2_inv in Bx; destruct Bx as (i & j & -> & Hi & Hj).
    cbn [length Nat.sub firstn skipn app] in *.
    apply dot_follows; intros; try apply H; try apply H'; try apply HM; try reflexivity;
      try (repeat constructor; lia).
    apply (HB [i; j]); repeat constructor; lia.
Qed.

Lemma follows_le k l t e a : follows k t e a -> (k <= l)%nat -> follows l t e a.
Proof. intros (D & D' & H) L; split; auto; split; auto; intros ix Bx; eapply P_le; eauto. Qed.

Lemma tree_follows n :
  ctx_wf c -> node_wf n -> arithmetic n -> agrees c n -> guarded n ->
  inputs_all (fun x => P 0 x (f64_real x) (Rabs (f64_real x))) c n ->
  follows (roundings c n) (steps c n) (real_value inf sp c n) (magnitude c n).
Proof.
  intros Wc W Ar Ag G [Iv Ic]; induction n; try contradiction.
  - (* Var *)
    unfold real_value, magnitude; cbn [steps node_through roundings].
    unfold var_tensor, ctx_through; destruct (c i) as [v|] eqn:E; cbn [option_map].
    + apply leaf_follows; [exact (Wc i v E)|exact (Iv i v E)].
    + split; [reflexivity|split; [reflexivity|intros; apply P_zero]].
  - (* Const *)
    apply leaf_follows; [exact W|exact Ic].
  - (* Un *)
    destruct G as [GB G].
    assert (Gm : guarded n) by (destruct u; try contradiction; try exact G; apply G).
    assert (Am : arithmetic n) by (destruct u; try contradiction; exact Ar).
    destruct (IHn W Am Ag Gm Ic) as (De & Da & H).
    unfold real_value, magnitude in *; cbn [steps node_through] in *.
    split; [exact De|split; [exact Da|]]; cbn [tdims tat] in *; intros ix Bx.
    assert (K := H ix Bx); assert (Bm := GB ix); rewrite Da in Bm; specialize (Bm Bx); cbn [tat] in Bm.
    destruct u; try contradiction; cbn [roundings un_fn] in *; unfold ftwo in *;
      cbn [fsub fadd fone fmul fneg fabs s64 float_scalar R_scalar size_scalar] in *.
    + apply P_sub; auto; eapply P_le; [apply P_one|lia].
    + apply P_sub; auto; eapply P_le; [apply P_one|lia].
    + apply P_add; auto; eapply P_le; [apply P_one|lia].
    + apply P_double; auto.
    + apply P_neg; auto.
    + rewrite (Rabs_pos_eq (tat (@steps R size_scalar _ _) ix)) by (eapply P_nonneg; exact K).
      apply P_abs; auto.
    + assert (Nn := P_nonneg _ _ _ _ K).
      match goal with |- P ?k _ _ _ => replace k with (S (roundings c n + S (roundings c n))) by lia end.
      apply P_mul; auto.
      * apply P_sub; auto; eapply P_le; [apply P_one|lia].
      * apply G; exact Bx.
  - (* Sum *)
    destruct G as [GB G]; destruct (IHn W Ar Ag G Ic) as (De & Da & H).
    unfold real_value, magnitude in *; cbn [steps node_through roundings] in *.
    split; [reflexivity|split; [reflexivity|]]; cbn [tdims tat] in *; intros ix Bx.
    rewrite De; rewrite Da in *; apply sum_follows; [|exact (GB ix Bx)].
    intros jx Hj; apply H; rewrite all_ix_iproduct in Hj; apply in_iproduct; exact Hj.
  - (* Add *)
    destruct G as (GB & G1 & G2), W as [W1 W2], Ar as [A1 A2], Ic as [I1 I2], Ag as (Ag1 & Ag2 & D).
    assert (H1 := IHn1 W1 A1 Ag1 G1 I1); assert (H2 := IHn2 W2 A2 Ag2 G2 I2).
    apply (crossed_follows (Nat.max (roundings c n1) (roundings c n2))
             (Nat.max (roundings c n1) (roundings c n2)) _ _ Rplus Rplus (fun _ _ => True)); auto;
      try (eapply follows_le; eauto; lia); intros; apply P_add; auto.
  - (* Sub *)
    destruct G as (GB & G1 & G2), W as [W1 W2], Ar as [A1 A2], Ic as [I1 I2], Ag as (Ag1 & Ag2 & D).
    assert (H1 := IHn1 W1 A1 Ag1 G1 I1); assert (H2 := IHn2 W2 A2 Ag2 G2 I2).
    apply (crossed_follows (Nat.max (roundings c n1) (roundings c n2))
             (Nat.max (roundings c n1) (roundings c n2)) _ _ Rminus Rplus (fun _ _ => True)); auto;
      try (eapply follows_le; eauto; lia); intros; apply P_sub; auto.
  - (* Mul *)
    destruct G as (GB & G1 & G2 & GM), W as [W1 W2], Ar as [A1 A2], Ic as [I1 I2], Ag as (Ag1 & Ag2 & D).
    assert (H1 := IHn1 W1 A1 Ag1 G1 I1); assert (H2 := IHn2 W2 A2 Ag2 G2 I2).
    apply (crossed_follows (roundings c n1) (roundings c n2) _ _ Rmult Rmult M); auto.
    + intros; apply P_mul; auto.
    + intros; cbn [roundings]; replace (1 + roundings c n1 + roundings c n2)%nat
        with (S (roundings c n2 + roundings c n1)) by lia; apply P_mul; auto.
  - (* Contract *)
    destruct G as (GB & G1 & G2 & GM), W as [W1 W2], Ar as [A1 A2], Ic as [I1 I2].
    destruct axes as [|axes].
    + destruct Ag as (Ag1 & Ag2).
      assert (H1 := IHn1 W1 A1 Ag1 G1 I1); assert (H2 := IHn2 W2 A2 Ag2 G2 I2).
      apply outer_follows; auto.
    + destruct Ag as (Ag1 & Ag2 & D).
      assert (H1 := IHn1 W1 A1 Ag1 G1 I1); assert (H2 := IHn2 W2 A2 Ag2 G2 I2).
      apply inner_follows; auto.
Qed.
End Follow.

(** Constants of the code. *)
Lemma one_finite : finite (foz 1).
Proof. apply of_Z_small; assert (K := room_two); lia. Qed.
Lemma one_real : f64_real (foz 1) = 1.
Proof. apply (of_Z_small 1); assert (K := room_two); lia. Qed.
Lemma one_valid : fvalid (foz 1).
Proof. apply of_Z_real. Qed.
Lemma two_valid : fvalid (SFadd prec emax (foz 1) (foz 1)).
Proof. apply add_real; apply one_valid. Qed.
Lemma two_sum : finite (SFadd prec emax (foz 1) (foz 1)) /\ f64_real (SFadd prec emax (foz 1) (foz 1)) = 2.
Proof.
  destruct (add_real _ _ one_valid one_valid) as (_ & E & Fi); rewrite !one_real in *.
  assert (K := room_two).
  replace (1 + 1) with (IZR 2) in * by lra.
  assert (K' : (Z.abs 2 <= 2 ^ prec)%Z) by exact K.
  rewrite (rnd_id _ (int_format 2 K')) in *.
  assert (Fs := Fi one_finite one_finite (int_small 2 K')); auto.
Qed.
Lemma two_real : f64_real (SFadd prec emax (foz 1) (foz 1)) = 2.
Proof. apply two_sum. Qed.
Lemma two_finite : finite (SFadd prec emax (foz 1) (foz 1)).
Proof. apply two_sum. Qed.

Lemma room_real : 2 <= 2 ^ Z.to_nat prec.
Proof.
  assert (FB : (2 <= prec < emax)%Z) by exact Fm.
  apply Rle_trans with (2 ^ 1); [lra|]; apply Rle_pow; [lra|lia].
Qed.

Lemma from_zero x : f64_real (SFadd prec emax f64_zero x) = f64_real x /\
  (fvalid x -> fvalid (SFadd prec emax f64_zero x)) /\
  (finite x <-> finite (SFadd prec emax f64_zero x)).
Proof. destruct x as [[]|[]| |[] m e]; cbn; tauto. Qed.

Lemma abs_real x : f64_real (SFabs x) = Rabs (f64_real x) /\ (fvalid x -> fvalid (SFabs x)) /\
  (finite (SFabs x) <-> finite x).
Proof.
  destruct x as [[]|[]| |s m e]; cbn; rewrite ?Rabs_R0; try tauto.
  split; [|tauto].
  assert (0 < IZR (Z.pos m) * powerRZ 2 e).
  { apply Rmult_lt_0_compat; [apply IZR_lt; lia|apply powerRZ_lt; lra]. }
  destruct s.
  - replace (-1 * IZR (Z.pos m) * powerRZ 2 e) with (- (IZR (Z.pos m) * powerRZ 2 e)) by ring.
    rewrite Rabs_Ropp, Rabs_pos_eq; lra.
  - rewrite Rmult_assoc, Rmult_1_l, Rabs_pos_eq; lra.
Qed.

(** Forward error. *)
Definition good (k : nat) (x : f64) (e a : R) : Prop :=
  fvalid x /\ Rabs e <= a /\
  (finite x -> Rabs (f64_real x - e) <= ((1 + uro) ^ k - 1) * a).

Lemma grow k : 1 <= (1 + uro) ^ k.
Proof. apply pow_R1_Rle; assert (U := uro_pos); lra. Qed.

Lemma grow_le k l : (k <= l)%nat -> (1 + uro) ^ k <= (1 + uro) ^ l.
Proof. intro; apply Rle_pow; auto; assert (U := uro_pos); lra. Qed.

Lemma good_nonneg k x e a : good k x e a -> 0 <= a.
Proof. intros (_ & H & _); apply Rle_trans with (2 := H), Rabs_pos. Qed.

Lemma good_le k l x e a : good k x e a -> (k <= l)%nat -> good l x e a.
Proof.
  intros G L; assert (N := good_nonneg _ _ _ _ G); destruct G as (V & H & K).
  split; auto; split; auto; intro Fi; apply Rle_trans with (1 := K Fi).
  apply Rmult_le_compat_r; auto; assert (J := grow_le k l L); lra.
Qed.

Lemma good_mag k x e a : good k x e a -> finite x -> Rabs (f64_real x) <= (1 + uro) ^ k * a.
Proof.
  intros (V & H & K) Fi; replace (f64_real x) with ((f64_real x - e) + e) by ring.
  apply Rle_trans with (1 := Rabs_triang _ _); assert (J := K Fi); lra.
Qed.

(** One addition: both operands with [k] roundings behind them. *)
Lemma good_sum k (x : f64) (X Y e f a b r d : R) :
  Rabs (X - e) <= ((1 + uro) ^ k - 1) * a -> Rabs (Y - f) <= ((1 + uro) ^ k - 1) * b ->
  Rabs e <= a -> Rabs f <= b -> Rabs d <= uro -> r = (X + Y) * (1 + d) ->
  Rabs (r - (e + f)) <= ((1 + uro) ^ S k - 1) * (a + b).
Proof.
  intros H1 H2 He Hf Hd ->.
  assert (Ha : 0 <= a) by (apply Rle_trans with (2 := He), Rabs_pos).
  assert (Hb : 0 <= b) by (apply Rle_trans with (2 := Hf), Rabs_pos).
  assert (U := uro_pos); assert (Q := grow k); set (q := (1 + uro) ^ k) in *.
  replace ((1 + uro) ^ S k) with ((1 + uro) * q) by reflexivity.
  replace ((X + Y) * (1 + d) - (e + f)) with ((X - e) + ((Y - f) + (X + Y) * d)) by ring.
  apply Rle_trans with (1 := Rabs_triang _ _).
  apply Rle_trans with ((q - 1) * a + ((q - 1) * b + (q * a + q * b) * uro)); [|nra].
  apply Rplus_le_compat; [exact H1|].
  apply Rle_trans with (1 := Rabs_triang _ _); apply Rplus_le_compat; [exact H2|].
  rewrite Rabs_mult; apply Rmult_le_compat; try apply Rabs_pos; auto.
  replace (X + Y) with (((X - e) + e) + ((Y - f) + f)) by ring.
  apply Rle_trans with (1 := Rabs_triang _ _).
  assert (J1 := Rabs_triang (X - e) e); assert (J2 := Rabs_triang (Y - f) f); lra.
Qed.

Lemma good_add k x e a y f b : good k x e a -> good k y f b ->
  good (S k) (SFadd prec emax x y) (e + f) (a + b).
Proof.
  intros (V & H & K) (V' & H' & K'); destruct (add_real x y V V') as (Vs & Es & _).
  split; auto; split; [apply Rle_trans with (1 := Rabs_triang _ _); lra|].
  intro Fi; destruct (finite_add _ _ Fi) as [Fx Fy]; destruct (rnd_sum x y V V') as (d & Hd & Ed).
  apply (good_sum k x (f64_real x) (f64_real y) e f a b _ d); auto; rewrite Es; auto.
Qed.

Lemma good_neg k x e a : good k x e a -> good k (SFopp x) (- e) a.
Proof.
  intros (V & H & K); split; [apply opp_valid; exact V|]; rewrite Rabs_Ropp; split; [exact H|].
  intro Fi; rewrite opp_real; replace (- f64_real x - - e) with (- (f64_real x - e)) by ring.
  rewrite Rabs_Ropp; apply K, opp_finite; exact Fi.
Qed.

Lemma good_sub k x e a y f b : good k x e a -> good k y f b ->
  good (S k) (SFsub prec emax x y) (e - f) (a + b).
Proof.
  intros (V & H & K) (V' & H' & K'); destruct (sub_real x y V V') as (Vs & Es & _).
  split; auto; split.
  { unfold Rminus; apply Rle_trans with (1 := Rabs_triang _ _); rewrite Rabs_Ropp; lra. }
  intro Fi; destruct (finite_sub _ _ Fi) as [Fx Fy].
  destruct (rnd_sum x (SFopp y) V (opp_valid _ V')) as (d & Hd & Ed).
  rewrite opp_real in Ed.
  apply (good_sum k x (f64_real x) (- f64_real y) e (- f) a b _ d); auto.
  - replace (- f64_real y - - f) with (- (f64_real y - f)) by ring; rewrite Rabs_Ropp; auto.
  - rewrite Rabs_Ropp; auto.
  - rewrite Es; auto.
Qed.

Lemma good_mul k l x e a y f b : good k x e a -> good l y f b -> (normal_product_in emax) x y ->
  good (S (k + l)) (SFmul prec emax x y) (e * f) (a * b).
Proof.
  intros G G' N; assert (M := good_mag _ _ _ _ G); assert (M' := good_mag _ _ _ _ G').
  assert (Na := good_nonneg _ _ _ _ G); assert (Nb := good_nonneg _ _ _ _ G').
  destruct G as (V & H & K), G' as (V' & H' & K'); destruct (mul_real x y V V') as (Vs & Es & _).
  split; auto; split; [rewrite Rabs_mult; apply Rmult_le_compat; auto using Rabs_pos|].
  intro Fi; destruct (finite_mul _ _ Fi) as [Fx Fy]; rewrite (Es Fi).
  destruct (rnd_rel _ N) as (d & Hd & ->); specialize (K Fx); specialize (K' Fy); specialize (M Fx); specialize (M' Fy).
  set (X := f64_real x) in *; set (Y := f64_real y) in *.
  assert (U := uro_pos); assert (Q := grow k); assert (Q' := grow l).
  replace ((1 + uro) ^ S (k + l)) with ((1 + uro) * ((1 + uro) ^ k * (1 + uro) ^ l))
    by (cbn [pow]; rewrite pow_add; reflexivity).
  set (q := (1 + uro) ^ k) in *; set (p := (1 + uro) ^ l) in *.
  replace (X * Y * (1 + d) - e * f) with ((X - e) * Y + (e * (Y - f) + X * Y * d)) by ring.
  apply Rle_trans with (1 := Rabs_triang _ _).
  apply Rle_trans with ((q - 1) * a * (p * b) + (a * ((p - 1) * b) + (q * a) * (p * b) * uro)).
  2:{ right; ring. }
  apply Rplus_le_compat; [rewrite Rabs_mult; apply Rmult_le_compat; auto using Rabs_pos|].
  apply Rle_trans with (1 := Rabs_triang _ _); apply Rplus_le_compat; rewrite Rabs_mult;
    apply Rmult_le_compat; auto using Rabs_pos.
  rewrite Rabs_mult; apply Rmult_le_compat; auto using Rabs_pos.
Qed.

Lemma good_double k x e a : good k x e a ->
  good k (SFmul prec emax (SFadd prec emax (foz 1) (foz 1)) x) ((1 + 1) * e) ((1 + 1) * a).
Proof.
  intros (V & H & K); destruct (mul_real _ x two_valid V) as (Vs & Es & _).
  split; auto; split; [rewrite Rabs_mult, (Rabs_pos_eq (1 + 1)) by lra; lra|].
  intro Fi; rewrite (Es Fi), two_real; destruct (finite_mul _ _ Fi) as [_ Fx].
  rewrite double_exact by exact V.
  replace (2 * f64_real x - (1 + 1) * e) with ((1 + 1) * (f64_real x - e)) by ring.
  rewrite Rabs_mult, (Rabs_pos_eq (1 + 1)) by lra; assert (J := K Fx); lra.
Qed.

Lemma good_abs k x e a : good k x e a -> good k (SFabs x) (Rabs e) a.
Proof.
  intros (V & H & K); destruct (abs_real x) as (Er & Vr & Fr).
  split; auto; split; [rewrite Rabs_Rabsolu; exact H|].
  intro Fi; rewrite Er; apply Rle_trans with (1 := Rabs_triang_inv2 _ _); apply K, Fr; exact Fi.
Qed.

Lemma good_leaf x : fvalid x -> good 0 x (f64_real x) (Rabs (f64_real x)).
Proof.
  intro V; split; auto; split; [lra|]; intros _; rewrite Rminus_diag_eq, Rabs_R0 by reflexivity; simpl; lra.
Qed.

Lemma good_from_zero k x e a : good k x e a -> good k (SFadd prec emax f64_zero x) (0 + e) (0 + a).
Proof.
  intros (V & H & K); destruct (from_zero x) as (Er & Vr & Fr).
  rewrite !Rplus_0_l; split; auto; split; auto; rewrite Er; intro Fi; apply K, Fr; exact Fi.
Qed.

Lemma inputs_weaken (A : Type) (P Q : A -> Prop) (c : ctx A) n :
  (forall x, P x -> Q x) -> inputs_all P c n -> inputs_all Q c n.
Proof.
  intros H [I1 I2]; split.
  - intros i v E d ix Bx; apply H; exact (I1 i v E d ix Bx).
  - induction n; cbn [constants_all] in *; auto.
    + intros d ix Bx; apply H; apply I2; exact Bx.
    + destruct I2; auto.
    + destruct I2; auto.
    + destruct I2; auto.
    + destruct I2; auto.
    + destruct I2; auto.
    + destruct I2; auto.
Qed.

Section Accuracy.
Variables (pow : f64 -> f64 -> f64) (lib : libfn -> f64 -> f64) (inf : R) (sp : libfn -> R -> R).
#[local] Instance s64' : Scalar f64 := float_scalar prec emax pow lib.

Lemma normal_guarded c n : arithmetic n -> no_underflow_in c emax n ->
  guarded pow lib (normal_product_in emax) (fun _ => True) c n.
Proof.
  induction n; intros A H; try contradiction; cbn [guarded]; try (split; [auto|]);
    cbn [arithmetic no_underflow_in] in *; try (exact I).
  - destruct u; try contradiction; auto. destruct H; auto.
  - auto.
  - destruct A, H; auto.
  - destruct A, H; auto.
  - destruct A as [A1 A2], H as (N1 & N2 & N3); auto.
  - destruct A as [A1 A2], H as (N1 & N2 & N3); auto.
Qed.

Lemma forward_both (c c' : ctx f64) n v ix :
  ctx_wf c -> node_wf n -> written c n -> arithmetic n -> inputs_all fvalid c n ->
  no_underflow_in c emax n -> evaluate n c = (c', Ok v) ->
  in_box (dims (vshape v)) ix ->
  Rabs (tat (real_value inf sp c n) ix) <= tat (magnitude c n) ix /\
  (finite (vat f64_zero v ix) ->
   Rabs (f64_real (vat f64_zero v ix) - tat (real_value inf sp c n) ix)
     <= ((1 + / 2 ^ Z.to_nat prec) ^ roundings c n - 1) * tat (magnitude c n) ix).
Proof.
  intros Wc W Hw A I N H Bx.
  destruct (steps_claim c c' n v Wc W Hw H) as (-> & Wv & D & E).
  assert (Ag := evaluate_agrees c n Wc c v W Hw H).
  destruct (tree_follows pow lib inf sp good (normal_product_in emax) (fun _ => True)) with (c := c) (n := n)
    as (_ & _ & K); auto.
  - exact good_le.
  - exact good_nonneg.
  - split; [reflexivity|]; split; [rewrite Rabs_R0; lra|]; intros _; simpl; rewrite Rminus_0_r, Rabs_R0; lra.
  - assert (K := good_leaf _ one_valid); rewrite one_real in K; rewrite Rabs_pos_eq in K by lra; exact K.
  - exact good_from_zero.
  - intros; apply good_add; auto.
  - intros; apply good_sub; auto.
  - intros; apply good_mul; auto.
  - intros; apply good_double; auto.
  - exact good_neg.
  - exact good_abs.
  - intros x y; unfold normal_product_in; rewrite (Rmult_comm (f64_real y)); auto.
  - apply normal_guarded; auto.
  - eapply inputs_weaken; [|exact I]; intros x V; apply good_leaf; exact V.
  - rewrite D in Bx; destruct (K ix Bx) as (_ & L1 & L2).
    change (vat f64_zero v ix) with (vat fzero v ix); rewrite (E ix Bx); split; [exact L1|exact L2].
Qed.

Lemma forward_error (c c' : ctx f64) n v ix :
  ctx_wf c -> node_wf n -> written c n -> arithmetic n -> inputs_all fvalid c n ->
  no_underflow_in c emax n -> evaluate n c = (c', Ok v) ->
  in_box (dims (vshape v)) ix -> finite (vat f64_zero v ix) ->
  Rabs (f64_real (vat f64_zero v ix) - tat (real_value inf sp c n) ix)
    <= ((1 + / 2 ^ Z.to_nat prec) ^ roundings c n - 1) * tat (magnitude c n) ix.
Proof. intros; eapply forward_both; eauto. Qed.

Lemma gamma_bound k : INR k * / 2 ^ Z.to_nat prec < 1 ->
  (1 + / 2 ^ Z.to_nat prec) ^ k - 1 <= INR k * / 2 ^ Z.to_nat prec / (1 - INR k * / 2 ^ Z.to_nat prec).
Proof.
  change (/ 2 ^ Z.to_nat prec) with uro; intro H; assert (U := uro_pos).
  assert (K : (1 + uro) ^ k * (1 - INR k * uro) <= 1).
  { induction k as [|k IH]; [simpl; lra|].
    rewrite S_INR in *; assert (Nk := pos_INR k).
    assert (J : (1 + uro) ^ k * (1 - INR k * uro) <= 1) by (apply IH; nra).
    cbn [Rpow_def.pow]; apply Rle_trans with (2 := J).
    rewrite (Rmult_comm (1 + uro)), Rmult_assoc; apply Rmult_le_compat_l; [assert (G := grow k); lra|nra]. }
  apply Rmult_le_reg_r with (1 - INR k * uro); [lra|].
  unfold Rdiv; rewrite Rmult_assoc, Rinv_l by lra; lra.
Qed.

Lemma forward_gamma (c c' : ctx f64) n v ix :
  ctx_wf c -> node_wf n -> written c n -> arithmetic n -> inputs_all fvalid c n ->
  no_underflow_in c emax n -> evaluate n c = (c', Ok v) ->
  in_box (dims (vshape v)) ix -> finite (vat f64_zero v ix) ->
  INR (roundings c n) * / 2 ^ Z.to_nat prec < 1 ->
  Rabs (f64_real (vat f64_zero v ix) - tat (real_value inf sp c n) ix)
    <= INR (roundings c n) * / 2 ^ Z.to_nat prec / (1 - INR (roundings c n) * / 2 ^ Z.to_nat prec)
       * tat (magnitude c n) ix.
Proof.
  intros Wc W Hw A I N H Bx Fi K.
  destruct (forward_both c c' n v ix Wc W Hw A I N H Bx) as [P Q].
  apply Rle_trans with (1 := Q Fi), Rmult_le_compat_r; [|apply gamma_bound; exact K].
  apply Rle_trans with (2 := P), Rabs_pos.
Qed.

(** Whole numbers. *)
Definition plain (k : nat) (x : f64) (e a : R) : Prop :=
  fvalid x /\ finite x /\ f64_real x = e /\ (exists z, e = IZR z) /\ Rabs e <= a.
Definition small (a : R) : Prop := a <= 2 ^ Z.to_nat prec.

Lemma small_int z : Rabs (IZR z) <= 2 ^ Z.to_nat prec -> (Z.abs z <= 2 ^ prec)%Z.
Proof.
  assert (FB : (2 <= prec < emax)%Z) by exact Fm.
  intro H; rewrite <- abs_IZR in H; apply le_IZR.
  replace (IZR (2 ^ prec)) with (2 ^ Z.to_nat prec); [exact H|].
  rewrite pow_IZR; f_equal; rewrite Z2Nat.id by lia; reflexivity.
Qed.

Lemma plain_result (x : f64) e a z : fvalid x -> e = IZR z -> Rabs e <= a -> small a ->
  (finite x -> f64_real x = rnd e) -> (Rabs (rnd e) < Raux.bpow Zaux.radix2 emax -> finite x) ->
  forall k, plain k x e a.
Proof.
  intros V E L S R Fi k; subst e.
  assert (Z := small_int z (Rle_trans _ _ _ L S)).
  rewrite (rnd_id _ (int_format z Z)) in *.
  assert (Fx := Fi (int_small z Z)).
  split; auto; split; auto; split; auto; split; [eauto|exact L].
Qed.

Lemma whole_exact (c c' : ctx f64) n v ix :
  ctx_wf c -> node_wf n -> written c n -> arithmetic n ->
  inputs_all (fun x => fvalid x /\ whole x) c n -> parts_within (2 ^ Z.to_nat prec) c n ->
  evaluate n c = (c', Ok v) -> in_box (dims (vshape v)) ix ->
  finite (vat f64_zero v ix) /\ f64_real (vat f64_zero v ix) = tat (real_value inf sp c n) ix.
Proof.
  intros Wc W Hw A I N H Bx.
  destruct (steps_claim c c' n v Wc W Hw H) as (-> & Wv & D & E).
  assert (Ag := evaluate_agrees c n Wc c v W Hw H).
  destruct (tree_follows pow lib inf sp plain (fun _ _ => True) small) with (c := c) (n := n)
    as (_ & _ & K); auto.
  - intros k x e a (_ & _ & _ & _ & L); apply Rle_trans with (2 := L), Rabs_pos.
  - unfold small; intros; lra.
  - split; [reflexivity|]; split; [exact Logic.I|]; split; [reflexivity|]; split; [exists 0%Z; reflexivity|].
    rewrite Rabs_R0; lra.
  - split; [apply one_valid|]; split; [exact one_finite|]; split; [apply one_real|].
    split; [exists 1%Z; reflexivity|rewrite Rabs_pos_eq; lra].
  - intros k x e a (V & Fx & Er & Z & L); destruct (from_zero x) as (Er' & Vr & Fr).
    rewrite !Rplus_0_l; split; auto; split; [apply Fr; exact Fx|]; split; [congruence|auto].
  - intros k x e a y f b (V & Fx & Er & (z & Z) & L) (V' & Fy & Er' & (z' & Z') & L') Sb.
    destruct (add_real x y V V') as (Vs & Es & Fs); rewrite Er, Er' in Es, Fs.
    apply (plain_result _ _ _ (z + z')); auto.
    + rewrite plus_IZR; congruence.
    + apply Rle_trans with (1 := Rabs_triang _ _); lra.
  - intros k x e a y f b (V & Fx & Er & (z & Z) & L) (V' & Fy & Er' & (z' & Z') & L') Sb.
    destruct (sub_real x y V V') as (Vs & Es & Fs); rewrite Er, Er' in Es, Fs.
    apply (plain_result _ _ _ (z - z')); auto.
    + rewrite minus_IZR; congruence.
    + unfold Rminus; apply Rle_trans with (1 := Rabs_triang _ _); rewrite Rabs_Ropp; lra.
  - intros k l x e a y f b (V & Fx & Er & (z & Z) & L) (V' & Fy & Er' & (z' & Z') & L') _ Sb.
    destruct (mul_real x y V V') as (Vs & Es & Fs); rewrite Er, Er' in Es, Fs.
    apply (plain_result _ _ _ (z * z')); auto.
    + rewrite mult_IZR; congruence.
    + rewrite Rabs_mult; apply Rmult_le_compat; auto using Rabs_pos.
  - intros k x e a (V & Fx & Er & (z & Z) & L) Sb.
    destruct (mul_real _ x two_valid V) as (Vs & Es & Fs); rewrite two_real, Er in Es, Fs.
    replace (1 + 1) with 2 in * by lra.
    apply (plain_result _ _ _ (2 * z)); auto.
    + rewrite mult_IZR; congruence.
    + rewrite Rabs_mult, (Rabs_pos_eq 2) by lra; lra.
    + intro Fi; apply Fs; auto; apply two_finite.
  - intros k x e a (V & Fx & Er & (z & Z) & L).
    split; [apply opp_valid; exact V|]; split; [apply opp_finite; exact Fx|].
    split; [rewrite opp_real; congruence|].
    split; [exists (- z)%Z; rewrite opp_IZR; congruence|rewrite Rabs_Ropp; exact L].
  - intros k x e a (V & Fx & Er & (z & Z) & L); destruct (abs_real x) as (Er' & Vr & Fr).
    split; auto; split; [apply Fr; exact Fx|]; split; [congruence|].
    split; [exists (Z.abs z); rewrite abs_IZR; congruence|rewrite Rabs_Rabsolu; exact L].
  - unfold small; intros a Na Sa.
    destruct (Rle_dec 1 a); [nra|].
    apply Rle_trans with 2; [lra|]; apply room_real.
  - clear - A N; induction n; try contradiction; cbn [guarded]; (split; [apply N|]); try exact Logic.I;
      destruct N as [_ N]; cbn [arithmetic] in A; try (destruct A, N; auto; fail); auto.
    destruct u; try contradiction; auto.
  - eapply inputs_weaken; [|exact I]; intros x (V & Fx & z & Z).
    split; auto; split; auto; split; auto; split; [eauto|lra].
  - rewrite D in Bx; destruct (K ix Bx) as (_ & L1 & L2 & _).
    change (vat f64_zero v ix) with (vat fzero v ix); rewrite (E ix Bx); split; [exact L1|exact L2].
Qed.
End Accuracy.

(** Sums and scalar products of variables. *)
Lemma fold_sum (A : Type) (h : A -> R) l : forall z,
  fold_left (fun a i => a + h i) l z = z + fold_right Rplus 0 (map h l).
Proof. induction l as [|i l IH]; intro z; simpl; [ring|rewrite IH; ring]. Qed.

Lemma seq_nth (A : Type) (d : A) l : map (fun i => nth i l d) (seq 0 (length l)) = l.
Proof.
  induction l as [|x l IH]; simpl; [reflexivity|].
  f_equal; rewrite <- seq_shift, map_map; exact IH.
Qed.

Lemma vec_ix n : all_ix [n] = map (fun i => [i]) (seq 0 n).
Proof. cbn [all_ix]; induction (seq 0 n) as [|i l IH]; cbn in *; [reflexivity|rewrite IH; reflexivity]. Qed.

Lemma vec_entries (A : Type) (Q : A -> Prop) l : Forall Q l -> entries_all Q (VVec l).
Proof.
  intros H d ix Bx; cbn in Bx; apply box1_inv in Bx; destruct Bx as (i & -> & Hi); cbn.
  rewrite Forall_forall in H; apply H, nth_In; exact Hi.
Qed.

Lemma arr_entries (A : Type) (Q : A -> Prop) l :
  Forall Q l -> entries_all Q (VArr [length l] (AN (map AF l))).
Proof.
  intros H d ix Bx; cbn in Bx; apply box1_inv in Bx; destruct Bx as (i & -> & Hi); cbn.
  rewrite nth_error_map; destruct (nth_error l i) as [x|] eqn:E; cbn.
  - rewrite Forall_forall in H; apply H; eapply nth_error_In; exact E.
  - apply nth_error_None in E; lia.
Qed.

Section Plain.
Variables (pow : f64 -> f64 -> f64) (lib : libfn -> f64 -> f64).
#[local] Instance s64'' : Scalar f64 := float_scalar prec emax pow lib.

Lemma sum_error (l : list f64) (c : ctx f64) i s :
  ctx_wf c -> (forall j v, c j = Some v -> entries_all fvalid v) ->
  c i = Some (VVec l) -> evaluate (Sum (Var i)) c = (c, Ok (VScal s)) -> finite s ->
  Rabs (f64_real s - fold_right Rplus 0 (map f64_real l))
    <= ((1 + / 2 ^ Z.to_nat prec) ^ (length l - 1) - 1) * fold_right Rplus 0 (map (fun x => Rabs (f64_real x)) l).
Proof.
  intros Wc V E H Fi.
  assert (K := forward_error pow lib 0 (fun _ x => x) c c (Sum (Var i)) (VScal s) [] Wc Logic.I Logic.I Logic.I
                 (conj V Logic.I) Logic.I H (proj2 (in_box_nil []) eq_refl) Fi).
  unfold real_value, magnitude in K; cbn [steps node_through roundings tat vat] in K.
  unfold var_tensor, ctx_through in K; rewrite E in K; cbn [option_map] in K.
  unfold tensor_of in K; cbn [tdims vshape bty_of bty_shape dims tat vmap] in K; rewrite !map_length in K.
  rewrite !vec_ix, map_length, seq_length, Nat.add_0_l in K.
  unfold sum_over in K; cbn [fadd fzero R_scalar size_scalar] in K.
  rewrite !fold_sum, !Rplus_0_l, !map_map in K; cbn [vat] in K.
  replace (map (fun x => nth x (map f64_real l) 0) (seq 0 (length l))) with (map f64_real l) in K
    by (rewrite <- (map_length f64_real l); symmetry; apply seq_nth).
  replace (map (fun x => nth x (map (fun x0 => Rabs (f64_real x0)) l) 0) (seq 0 (length l)))
    with (map (fun x => Rabs (f64_real x)) l) in K
    by (rewrite <- (map_length (fun x => Rabs (f64_real x)) l); symmetry; apply seq_nth).
  exact K.
Qed.

Lemma vat_arr (A : Type) (d : A) ds l k : vat d (VArr ds (AN (map AF l))) [k] = nth k l d.
Proof.
  cbn; rewrite nth_error_map; destruct (nth_error l k) as [x|] eqn:E; cbn.
  - symmetry; apply nth_error_nth; exact E.
  - symmetry; apply nth_overflow, nth_error_None; exact E.
Qed.

Lemma arr_map_leaves (A B : Type) (g : A -> B) l : arr_map g (AN (map AF l)) = AN (map AF (map g l)).
Proof. cbn; rewrite !map_map; reflexivity. Qed.

Lemma zip_seq (A B C : Type) (g : A -> B -> C) (da : A) (db : B) xs ys : length xs = length ys ->
  map (fun k => g (nth k xs da) (nth k ys db)) (seq 0 (length xs)) =
  map (fun p => g (fst p) (snd p)) (combine xs ys).
Proof.
  revert ys; induction xs as [|x xs IH]; intros [|y ys] L; try discriminate; [reflexivity|].
  cbn [length seq map combine nth fst snd]; f_equal; rewrite <- seq_shift, map_map; apply IH.
  injection L; auto.
Qed.

Lemma combine_through (A B : Type) (g : A -> B) (xs ys : list A) : length xs = length ys ->
  forall h : B -> B -> B,
  map (fun p => h (fst p) (snd p)) (combine (map g xs) (map g ys)) =
  map (fun p => h (g (fst p)) (g (snd p))) (combine xs ys).
Proof.
  intros L h; revert ys L; induction xs as [|x xs IH]; intros [|y ys] L; try discriminate; [reflexivity|].
  cbn; f_equal; apply IH; injection L; auto.
Qed.

Lemma dot_error (xs ys : list f64) (c : ctx f64) i j s :
  ctx_wf c -> (forall k v, c k = Some v -> entries_all fvalid v) ->
  c i = Some (VArr [length xs] (AN (map AF xs))) -> c j = Some (VArr [length xs] (AN (map AF ys))) ->
  length xs = length ys ->
  Forall (fun p => (normal_product_in emax) (fst p) (snd p)) (combine xs ys) ->
  evaluate (Contract 1 (Var i) (Var j)) c = (c, Ok (VScal s)) -> finite s ->
  Rabs (f64_real s - fold_right Rplus 0 (map (fun p => f64_real (fst p) * f64_real (snd p)) (combine xs ys)))
    <= ((1 + / 2 ^ Z.to_nat prec) ^ length xs - 1) *
       fold_right Rplus 0 (map (fun p => Rabs (f64_real (fst p)) * Rabs (f64_real (snd p))) (combine xs ys)).
Proof.
  intros Wc V Ei Ej Le N H Fi.
  assert (Ti : forall g, @var_tensor f64 g c i = Tensor [length xs] (vat fzero (VArr [length xs] (AN (map AF xs))))).
  { intro g; unfold var_tensor; rewrite Ei; reflexivity. }
  assert (Tj : forall g, @var_tensor f64 g c j = Tensor [length xs] (vat fzero (VArr [length xs] (AN (map AF ys))))).
  { intro g; unfold var_tensor; rewrite Ej; reflexivity. }
  assert (Wr : written c (Contract 1 (Var i) (Var j))).
  { split; [exact Logic.I|split; [exact Logic.I|]]; left; cbn [steps]; rewrite Ti; discriminate. }
  assert (Nu : no_underflow_in c emax (Contract 1 (Var i) (Var j))).
  { split; [exact Logic.I|split; [exact Logic.I|]]; cbn [steps]; rewrite Ti, Tj; cbn [tdims tat].
    intros ix jx Bx By [Q|Q]; [discriminate|].
    apply box1_inv in Bx; destruct Bx as (k & -> & Hk); apply box1_inv in By; destruct By as (k' & -> & Hk').
    cbn [last hd] in Q; subst k'; rewrite !vat_arr.
    rewrite Forall_forall in N; apply (N (nth k xs fzero, nth k ys fzero)).
    rewrite <- combine_nth by exact Le; apply nth_In; rewrite combine_length; lia. }
  assert (K := forward_error pow lib 0 (fun _ x => x) c c (Contract 1 (Var i) (Var j)) (VScal s) []
                 Wc (conj Logic.I Logic.I) Wr
                 (conj Logic.I Logic.I) (conj V (conj Logic.I Logic.I)) Nu H (proj2 (in_box_nil []) eq_refl) Fi).
  cbn [roundings steps] in K; rewrite Ti, Tj in K; unfold depth in K; cbn [tdims last Nat.add] in K.
  unfold real_value, magnitude in K; cbn [steps node_through tat vat] in K.
  unfold var_tensor, ctx_through in K; rewrite Ei, Ej in K; cbn [option_map vmap] in K.
  rewrite !arr_map_leaves in K; unfold tensor_of in K.
  cbn [vshape bty_of bty_shape dims] in K; unfold inner_steps, inner in K; cbn [tdims tat last length Nat.sub] in K.
  unfold sum_over in K; cbn [fadd fmul fzero R_scalar size_scalar firstn skipn app] in K.
  rewrite !fold_sum, !Rplus_0_l in K.
  assert (Q : forall g : f64 -> R,
    map (fun k => vat 0 (VArr [length xs] (AN (map AF (map g xs)))) [k] *
                  vat 0 (VArr [length xs] (AN (map AF (map g ys)))) [k]) (seq 0 (length xs)) =
    map (fun p => g (fst p) * g (snd p)) (combine xs ys)).
  { intro g; rewrite <- (combine_through _ _ g xs ys Le Rmult).
    rewrite <- (zip_seq _ _ _ Rmult 0 0) by (rewrite !map_length; exact Le).
    rewrite map_length; apply map_ext; intro k; rewrite !vat_arr; reflexivity. }
  rewrite !Q in K; exact K.
Qed.
End Plain.

End Formats.
