(** Signs of floating-point results, in the form used by Properties_sign.v. *)
From Coq Require Import List Arith ZArith Bool Lia SpecFloat.
Import ListNotations.
From Verif Require Import Base Shapes Scalar Buffers Spec Contraction Node Eval Types Instances
  Vocab Math Code_math Float_math Index_facts Buffers_facts Spec_facts Contraction_facts
  Contraction_entries Match_facts Eval_facts Progress_facts Math_facts Code_claims
  Float_claims Relate_facts Sign_math.

Section Formats.
Variables prec emax : Z.

Definition signed (p : bool) (x : f64) : f64 := if p then SFopp x else x.

Lemma opp_opp x : SFopp (SFopp x) = x.
Proof. destruct x; cbn; rewrite ?negb_involutive; reflexivity. Qed.

(** Rounding commutes with negation. *)
Lemma aux_opp s m e l : binary_round_aux prec emax (negb s) m e l = SFopp (binary_round_aux prec emax s m e l).
Proof.
  unfold binary_round_aux. destruct (shr_fexp prec emax m e l) as [r e1].
  destruct (shr_fexp prec emax _ e1 loc_Exact) as [r2 e2]; destruct (shr_m r2); try reflexivity.
  destruct (e2 <=? emax - prec)%Z; reflexivity.
Qed.
Lemma round_opp s m e : binary_round prec emax (negb s) m e = SFopp (binary_round prec emax s m e).
Proof. unfold binary_round; destruct (shl_align _ _ _); apply aux_opp. Qed.

Lemma mirrored_refl x : mirrored false x x.
Proof. left; reflexivity. Qed.
Lemma mirrored_zero p : mirrored p f64_zero f64_zero.
Proof. right; split; exact I. Qed.

Lemma normalize_opp m e : mirrored true (binary_normalize prec emax m e false) (binary_normalize prec emax (- m) e false).
Proof.
  destruct m as [|m|m]; cbn [binary_normalize Z.opp]; [right; split; exact I| |]; left.
  - exact (round_opp false m e).
  - exact (round_opp true m e).
Qed.

Lemma neg_mirrored p x y : mirrored p x y -> mirrored p (SFopp x) (SFopp y).
Proof.
  intros [->|[Zx Zy]]; [left; destruct p; reflexivity|right].
  destruct x, y; try contradiction; split; exact I.
Qed.

Lemma sum_opp x y : mirrored true (SFadd prec emax x y) (SFadd prec emax (SFopp x) (SFopp y)).
Proof.
  destruct x as [sx|sx| |sx mx ex], y as [sy|sy| |sy my ey]; cbn [SFopp SFadd]; try (left; reflexivity).
  - destruct sx, sy; right; split; exact I.
  - destruct sx, sy; left; reflexivity.
  - match goal with |- mirrored true (binary_normalize _ _ ?a _ _) (binary_normalize _ _ ?b _ _) =>
      replace b with (- a)%Z by (destruct sx, sy; cbn [cond_Zopp negb]; lia) end.
    apply normalize_opp.
Qed.

(** Zeros of either sign are the same to sums. *)
Lemma sum_zero_l x y z : a_zero x -> a_zero y -> mirrored false (SFadd prec emax x z) (SFadd prec emax y z).
Proof.
  intros X Y; destruct x as [sx|?| |? ? ?]; try contradiction; destruct y as [sy|?| |? ? ?]; try contradiction.
  destruct z as [sz|?| |? ? ?]; cbn [SFadd]; try (left; reflexivity).
  right; destruct sx, sy, sz; split; exact I.
Qed.
Lemma sum_zero_r x y z : a_zero x -> a_zero y -> mirrored false (SFadd prec emax z x) (SFadd prec emax z y).
Proof.
  intros X Y; destruct x as [sx|?| |? ? ?]; try contradiction; destruct y as [sy|?| |? ? ?]; try contradiction.
  destruct z as [sz|?| |? ? ?]; cbn [SFadd]; try (left; reflexivity).
  right; destruct sx, sy, sz; split; exact I.
Qed.

Lemma mirrored_trans p q x y z : mirrored p x y -> mirrored q y z -> mirrored (xorb p q) x z.
Proof.
  intros [->|[X Y]] [->|[Y' Z]].
  - left; destruct p, q; cbn; rewrite ?opp_opp; reflexivity.
  - right; split; [|exact Z]; destruct p, x; exact Y'.
  - right; split; [exact X|]; destruct q, y; exact Y.
  - right; split; assumption.
Qed.

Lemma flip_zero p x : a_zero x -> mirrored p x x.
Proof. intro H; right; split; exact H. Qed.

Lemma add_mirrored p x x' y y' : mirrored p x x' -> mirrored p y y' ->
  mirrored p (SFadd prec emax x y) (SFadd prec emax x' y').
Proof.
  intros Hx Hy.
  assert (A : mirrored p (SFadd prec emax x y) (SFadd prec emax (signed p x) (signed p y))).
  { destruct p; [apply sum_opp|apply mirrored_refl]. }
  assert (B : mirrored false (SFadd prec emax (signed p x) (signed p y)) (SFadd prec emax x' (signed p y))).
  { destruct Hx as [->|[X X']]; [apply mirrored_refl|]. apply sum_zero_l; [destruct p, x; exact X|exact X']. }
  assert (C : mirrored false (SFadd prec emax x' (signed p y)) (SFadd prec emax x' y')).
  { destruct Hy as [->|[Y Y']]; [apply mirrored_refl|]. apply sum_zero_r; [destruct p, y; exact Y|exact Y']. }
  assert (D := mirrored_trans _ _ _ _ _ A (mirrored_trans _ _ _ _ _ B C)); cbn in D; rewrite xorb_false_r in D; exact D.
Qed.

Lemma sub_add x y : mirrored false (SFsub prec emax x y) (SFadd prec emax x (SFopp y)).
Proof.
  left; destruct x as [sx|sx| |sx mx ex], y as [sy|sy| |sy my ey]; cbn [SFopp SFadd SFsub]; try reflexivity.
  f_equal; destruct sy; cbn [cond_Zopp negb]; lia.
Qed.
Lemma mirrored_sym x y : mirrored false x y -> mirrored false y x.
Proof. intros [->|[X Y]]; [left; reflexivity|right; auto]. Qed.

Lemma sub_mirrored p x x' y y' : mirrored p x x' -> mirrored p y y' ->
  mirrored p (SFsub prec emax x y) (SFsub prec emax x' y').
Proof.
  intros Hx Hy.
  assert (D := mirrored_trans _ _ _ _ _ (sub_add x y) (mirrored_trans _ _ _ _ _
    (add_mirrored p _ _ _ _ Hx (neg_mirrored p _ _ Hy)) (mirrored_sym _ _ (sub_add x' y')))).
  rewrite xorb_false_l, xorb_false_r in D; exact D.
Qed.

Lemma product_sign x y a b : SFmul prec emax (signed a x) (signed b y) = signed (xorb a b) (SFmul prec emax x y).
Proof.
  assert (L : forall x y, SFmul prec emax (SFopp x) y = SFopp (SFmul prec emax x y)).
  { intros [sx|sx| |sx mx ex] [sy|sy| |sy my ey]; cbn [SFopp SFmul]; try reflexivity;
      rewrite <- ?negb_xorb_l; try reflexivity. apply aux_opp. }
  assert (R : forall x y, SFmul prec emax x (SFopp y) = SFopp (SFmul prec emax x y)).
  { intros [sx|sx| |sx mx ex] [sy|sy| |sy my ey]; cbn [SFopp SFmul]; try reflexivity;
      rewrite <- ?negb_xorb_r; try reflexivity. apply aux_opp. }
  destruct a, b; cbn [signed xorb]; rewrite ?L, ?R, ?opp_opp; reflexivity.
Qed.
Lemma quotient_sign x y a b : SFdiv prec emax (signed a x) (signed b y) = signed (xorb a b) (SFdiv prec emax x y).
Proof.
  assert (L : forall x y, SFdiv prec emax (SFopp x) y = SFopp (SFdiv prec emax x y)).
  { intros [sx|sx| |sx mx ex] [sy|sy| |sy my ey]; cbn [SFopp SFdiv]; try reflexivity;
      rewrite <- ?negb_xorb_l; try reflexivity. destruct (SFdiv_core_binary _ _ _ _ _ _) as [[? ?] ?]; apply aux_opp. }
  assert (R : forall x y, SFdiv prec emax x (SFopp y) = SFopp (SFdiv prec emax x y)).
  { intros [sx|sx| |sx mx ex] [sy|sy| |sy my ey]; cbn [SFopp SFdiv]; try reflexivity;
      rewrite <- ?negb_xorb_r; try reflexivity. destruct (SFdiv_core_binary _ _ _ _ _ _) as [[? ?] ?]; apply aux_opp. }
  destruct a, b; cbn [signed xorb]; rewrite ?L, ?R, ?opp_opp; reflexivity.
Qed.

Lemma product_zero x y x' y' : a_zero x -> a_zero x' -> (exists q, mirrored q y y') ->
  mirrored false (SFmul prec emax x y) (SFmul prec emax x' y') /\
  mirrored true (SFmul prec emax x y) (SFmul prec emax x' y').
Proof.
  intros X X' [q Q]; destruct x as [sx|?| |? ? ?]; try contradiction; destruct x' as [sx'|?| |? ? ?]; try contradiction.
  destruct Q as [->|[Y Y']].
  - destruct q, y; cbn [SFopp SFmul]; split; solve [left; reflexivity|right; split; exact I].
  - destruct y, y'; try contradiction; cbn [SFmul]; split; right; split; exact I.
Qed.

Lemma product_comm x y : SFmul prec emax x y = SFmul prec emax y x.
Proof.
  destruct x as [sx|sx| |sx mx ex], y as [sy|sy| |sy my ey]; cbn [SFmul]; try reflexivity; try (rewrite xorb_comm; reflexivity).
  rewrite xorb_comm, Pos.mul_comm, Z.add_comm; reflexivity.
Qed.

Lemma mul_mirrored a b x x' y y' : mirrored a x x' -> mirrored b y y' ->
  mirrored (xorb a b) (SFmul prec emax x y) (SFmul prec emax x' y').
Proof.
  intros Hx Hy; destruct Hx as [->|[X X']].
  - destruct Hy as [->|[Y Y']]; [left; apply (product_sign x y a b)|].
    rewrite (product_comm x y), (product_comm _ y').
    destruct (product_zero y x y' (if a then SFopp x else x) Y Y') as [P Q]; [exists a; left; reflexivity|].
    destruct (xorb a b); assumption.
  - destruct (product_zero x y x' y' X X') as [P Q]; [exists b; exact Hy|]; destruct (xorb a b); assumption.
Qed.

Lemma div_mirrored a b x x' y y' : mirrored a x x' -> mirrored b y y' -> ~ a_zero y ->
  mirrored (xorb a b) (SFdiv prec emax x y) (SFdiv prec emax x' y').
Proof.
  intros Hx [->|[Y _]] N; [|contradiction].
  destruct Hx as [->|[X X']]; [left; apply (quotient_sign x y a b)|].
  destruct x as [sx|?| |? ? ?]; try contradiction; destruct x' as [sx'|?| |? ? ?]; try contradiction.
  destruct y as [sy|?| |? ? ?]; [destruct N; exact I| | |]; destruct b; cbn [SFopp SFdiv];
    solve [right; split; exact I|left; destruct (xorb a _); reflexivity].
Qed.

Lemma abs_mirrored p x y : mirrored p x y -> mirrored false (SFabs x) (SFabs y).
Proof.
  intros [->|[X Y]]; [left; destruct p, x; reflexivity|].
  destruct x, y; try contradiction; left; reflexivity.
Qed.

Section Runs.
Variables (pow : f64 -> f64 -> f64) (lib : libfn -> f64 -> f64).
Hypothesis aware : respects_signs prec emax pow lib.
#[local] Instance signed_scalar : Scalar f64 := float_scalar prec emax pow lib.
Variables (w : ident -> bool) (c d : ctx f64).

Lemma zero_is x : a_zero x -> is_zero x = true.
Proof. destruct x as [s|?| |? ? ?]; intro H; try contradiction; destruct s; reflexivity. Qed.
Lemma is_zero_mirrored p x y : mirrored p x y -> is_zero x = is_zero y.
Proof.
  intros [->|[X Y]]; [|rewrite !zero_is by assumption; reflexivity].
  destruct p; [|reflexivity]; destruct x as [s|s| |s m e]; destruct s || idtac; reflexivity.
Qed.

Lemma sign_mirrored p x y : mirrored p x y -> mirrored p (un_fn Sign x) (un_fn Sign y).
Proof.
  intro H; cbn [un_fn]; rewrite <- (is_zero_mirrored p x y H); destruct (is_zero x) eqn:E; [exact H|].
  destruct H as [->|[X _]]; [|rewrite (zero_is x X) in E; discriminate].
  destruct p; [|apply mirrored_refl]. destruct x as [s|s| |s m e]; cbn; try (left; reflexivity).
  - left; destruct s; cbn [negb]; [exact (round_opp true 1 0)|exact (round_opp false 1 0)].
  - left; destruct s; cbn [negb]; [exact (round_opp true 1 0)|exact (round_opp false 1 0)].
  - left; destruct s; cbn [negb]; [exact (round_opp true 1 0)|exact (round_opp false 1 0)].
Qed.

Lemma tree_signs n : forall p, ctx_wf c -> ctx_wf d -> written c n -> agrees c n -> agrees d n ->
  mirrored_inputs w c d -> parity w c n p -> rel (mirrored p) (steps c n) (steps d n).
Proof.
  induction n; intros p Wc Wd Hw Ag Ag' Sc Hm; try contradiction.
  - (* Var *)
    cbn [steps parity] in *; unfold var_tensor; specialize (Sc i); subst p.
    destruct (c i) as [v|] eqn:E, (d i) as [u|] eqn:E'; try contradiction.
    + destruct Sc as [D L]; split; [exact D|]; cbn [tdims tat tensor_of]; intros ix Bx; apply L; exact Bx.
    + split; [reflexivity|]; intros; apply mirrored_zero.
  - (* Const *)
    cbn [parity] in Hm; subst p; split; [reflexivity|]; intros ix Bx; apply mirrored_refl.
  - (* Un *)
    assert (T1 := mirrored_refl (float_of_Z prec emax 1)).
    destruct u; try contradiction; cbn [steps parity] in *; try (destruct Hm as [-> Hm]); try (destruct Hm as [q Hm]);
      (eapply rel_un; [exact (IHn _ Wc Wd Hw Ag Ag' Sc Hm)|]); intros x y H.
    all: try (apply sign_mirrored; exact H).
    all: try (cbn [un_fn flib signed_scalar float_scalar]; apply (sign_odd _ _ _ _ aware); [reflexivity|exact H]).
    all: try (cbn [un_fn flib signed_scalar float_scalar]; apply (sign_even _ _ _ _ aware _ q); [reflexivity|exact H]).
    + apply sub_mirrored; auto.
    + apply sub_mirrored; auto.
    + apply add_mirrored; auto.
    + exact (sign_square _ _ _ _ aware _ x y H).
    + rewrite <- (xorb_false_l p); exact (mul_mirrored false p _ _ x y (mirrored_refl (SFadd prec emax (float_of_Z prec emax 1) (float_of_Z prec emax 1))) H).
    + apply neg_mirrored; exact H.
    + cbn [un_fn]; change (feq x fzero) with (is_zero x); change (feq y fzero) with (is_zero y).
      rewrite (is_zero_mirrored _ x y H); apply mirrored_refl.
    + apply (abs_mirrored q); exact H.
    + exact (mul_mirrored false false x y _ _ H (sub_mirrored false _ _ x y T1 H)).
  - (* Sum *)
    cbn [steps parity] in *; apply rel_sum; [apply mirrored_zero|intros; apply add_mirrored; auto|].
    exact (IHn p Wc Wd Hw Ag Ag' Sc Hm).
  - (* Add *)
    destruct Hw as [W1 W2], Ag as (A1 & A2 & D), Ag' as (A1' & A2' & _), Hm as [H1 H2]; cbn [steps].
    eapply rel_crossed; [apply (IHn1 p)|apply (IHn2 p)|exact D| |]; auto;
      intros _ x x' y y' L L'; apply add_mirrored; auto.
  - (* Sub *)
    destruct Hw as [W1 W2], Ag as (A1 & A2 & D), Ag' as (A1' & A2' & _), Hm as [H1 H2]; cbn [steps].
    eapply rel_crossed; [apply (IHn1 p)|apply (IHn2 p)|exact D| |]; auto;
      intros _ x x' y y' L L'; apply sub_mirrored; auto.
  - (* Mul *)
    destruct Hw as [W1 W2], Ag as (A1 & A2 & D), Ag' as (A1' & A2' & _), Hm as (a & b & H1 & H2 & ->); cbn [steps].
    eapply rel_crossed; [apply (IHn1 a)|apply (IHn2 b)|exact D| |]; auto;
      intros _ x x' y y' L L'; [|rewrite xorb_comm]; apply mul_mirrored; auto.
  - (* Div *)
    destruct Hw as [W1 W2], Ag as (A1 & A2 & D), Ag' as (A1' & A2' & _), Hm as [(a & b & H1 & H2 & ->) N]; cbn [steps] in *.
    assert (R1 : rel (mirrored a) (steps c n1) (steps d n1)) by (apply IHn1; auto).
    assert (R2 : rel (mirrored b) (steps c n2) (steps d n2)) by (apply IHn2; auto).
    apply (rel_crossed_if (mirrored a) (mirrored b) _ (fun x y _ _ =>
             if exchanged c n1 n2 then ~ a_zero x else ~ a_zero y)); auto.
    + intros ix Bx; specialize (N ix Bx); unfold dividend_divisor, exchanged in *.
      destruct (tdims (steps c n1)) eqn:E1, (tdims (steps c n2)) as [|? [|? ?]] eqn:E2; exact N.
    + intros Y x x' y y' L L'; change (exchanged c n1 n2 = false) in Y; rewrite Y; intro Q; apply div_mirrored; auto.
    + intros Y x x' y y' L L'; change (exchanged c n1 n2 = true) in Y; rewrite Y; intro Q; rewrite xorb_comm; apply div_mirrored; auto.
  - (* Contract *)
    destruct Hw as (W1 & W2 & _), Hm as (a & b & H1 & H2 & ->).
    assert (A1 : agrees c n1) by (destruct axes; apply Ag).
    assert (A2 : agrees c n2) by (destruct axes; apply Ag).
    assert (A1' : agrees d n1) by (destruct axes; apply Ag').
    assert (A2' : agrees d n2) by (destruct axes; apply Ag').
    assert (R1 : rel (mirrored a) (steps c n1) (steps d n1)) by (apply IHn1; auto).
    assert (R2 : rel (mirrored b) (steps c n2) (steps d n2)) by (apply IHn2; auto).
    destruct axes as [|axes]; cbn [steps].
    + eapply rel_outer; [| |exact R1|exact R2]; intros x x' y y' L L'; [|rewrite xorb_comm]; apply mul_mirrored; auto.
    + destruct Ag as (_ & _ & D).
      eapply rel_inner; [apply mirrored_zero|intros; apply add_mirrored; auto| |exact D|exact R1|exact R2].
      intros x x' y y' L L'; apply mul_mirrored; auto.
Qed.

Lemma signs (c' d' : ctx f64) (n : node f64) p v u :
  ctx_wf c -> ctx_wf d -> node_wf n -> written c n -> written d n ->
  mirrored_inputs w c d -> parity w c n p ->
  evaluate n c = (c', Ok v) -> evaluate n d = (d', Ok u) ->
  dims (vshape v) = dims (vshape u) /\
  forall ix, in_box (dims (vshape v)) ix -> mirrored p (vat f64_zero v ix) (vat f64_zero u ix).
Proof.
  intros Wc Wd W Hw Hw' Sc Hm H H'.
  destruct (steps_claim c c' n v Wc W Hw H) as (-> & Wv & D & E).
  destruct (steps_claim d d' n u Wd W Hw' H') as (-> & Ww & D' & E').
  assert (Ag := evaluate_agrees c n Wc c v W Hw H); assert (Ag' := evaluate_agrees d n Wd d u W Hw' H').
  destruct (tree_signs n p Wc Wd Hw Ag Ag' Sc Hm) as [Q K].
  split; [congruence|]; intros ix Bx; rewrite D in Bx; assert (Bx' := Bx); rewrite Q in Bx'.
  change (vat f64_zero v ix) with (vat fzero v ix); change (vat f64_zero u ix) with (vat fzero u ix).
  rewrite (E ix Bx), (E' ix Bx'); apply (K ix Bx).
Qed.
End Runs.
End Formats.
