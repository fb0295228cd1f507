(** Soundness of the running error bounds. *)
From Coq Require Import List Arith ZArith Reals SpecFloat Bool Lia Lra.
Import ListNotations.
From Flocq Require Import Core Relative.
From Verif Require Import Base Shapes Scalar Buffers Spec Contraction Node Eval Types Instances
  Vocab Math Code_math Float_math Enclosure_math Index_facts Buffers_facts Code_claims Instance_facts Float_facts
  Float_claims Relate_facts.
Local Open Scope R_scope.

(** Trees with the operators allowed, and powers if these are. *)
Fixpoint ops_in {F} (ok : unop -> Prop) (pw : Prop) (n : node F) : Prop :=
  match n with
  | Un u m => ok u /\ ops_in ok pw m
  | Sum m | Cached m _ | ConstAdj m _ => ops_in ok pw m
  | Power l r => pw /\ ops_in ok pw l /\ ops_in ok pw r
  | Add l r | Sub l r | Mul l r | Div l r | Contract _ l r => ops_in ok pw l /\ ops_in ok pw r
  | Var _ | VarAdj _ _ | Const _ | ConstSpec _ => True
  end.
Definition free_op (u : unop) : Prop := match u with Dirac | Sign | XLnX | Sigmoid => False | _ => True end.
Definition plain_op (u : unop) : Prop :=
  match u with SubOne | OneSub | AddOne | Double | Negate | Abs | Rabbit => True | _ => False end.

Lemma branch_free_ops {F} (n : node F) : branch_free n -> ops_in free_op True n.
Proof.
  induction n; cbn [branch_free ops_in]; intuition.
  - destruct u; try contradiction; exact Logic.I.
  - destruct u; try contradiction; auto.
Qed.

Lemma library_free_ops {F} (n : node F) : library_free n -> ops_in plain_op False n.
Proof.
  induction n; cbn [library_free ops_in]; intuition.
  - destruct u; try contradiction; exact Logic.I.
  - destruct u; try contradiction; auto.
Qed.

Lemma library_branch_free {F} (n : node F) : library_free n -> branch_free n.
Proof. induction n; cbn [library_free branch_free]; intuition; destruct u; try contradiction; auto. Qed.

(** * Operations one by one, on numbers replaced through [g] *)
Section Through.
Context {A B : Type} {SA : Scalar A} {SB : Scalar B}.
Variables (P : A -> B -> Prop) (g : A -> B) (ok : unop -> Prop) (pw : Prop).
Hypothesis P_zero : P fzero fzero.
Hypothesis P_add : forall x x' y y', P x x' -> P y y' -> P (fadd x y) (fadd x' y').
Hypothesis P_sub : forall x x' y y', P x x' -> P y y' -> P (fsub x y) (fsub x' y').
Hypothesis P_mul : forall x x' y y', P x x' -> P y y' -> P (fmul x y) (fmul x' y').
Hypothesis P_div : forall x x' y y', P x x' -> P y y' -> P (fdiv x y) (fdiv x' y').
Hypothesis P_pow : pw -> forall x x' y y', P x x' -> P y y' -> P (fpow x y) (fpow x' y').
Hypothesis P_un : forall u, ok u -> forall x x', P x x' -> P (un_fn u x) (un_fn u x').

Lemma tree_through (c : ctx A) n : ctx_wf c -> node_wf n -> written c n -> agrees c n -> ops_in ok pw n ->
  inputs_all (fun x => P x (g x)) c n ->
  rel P (steps c n) (steps (ctx_through g c) (node_through g n)).
Proof.
  intros Wc W Hw Ag Bf [Iv Ic].
  assert (Leaf : forall v, vwf v -> entries_all (fun x => P x (g x)) v -> rel P (tensor_of v) (tensor_of (vmap g v))).
  { intros v Wv I; unfold tensor_of, rel; cbn [tdims tat]; unfold vshape; rewrite vmap_bty.
    split; [reflexivity|]; intros ix Bx; rewrite (vat_vmap _ _ fzero) by assumption; apply I; exact Bx. }
  induction n; try contradiction; cbn [node_through steps].
  - unfold var_tensor, ctx_through; destruct (c i) as [v|] eqn:E; cbn [option_map].
    + apply Leaf; [exact (Wc i v E)|exact (Iv i v E)].
    + split; [reflexivity|]; intros; exact P_zero.
  - apply Leaf; [exact W|exact Ic].
  - destruct Bf as [Bu Bf]; eapply rel_un; [exact (IHn W Hw Ag Bf Ic)|]; apply P_un; exact Bu.
  - apply rel_sum; auto.
  - destruct Hw as [W1 W2], Ag as (A1 & A2 & D1 & D2), Ic as [I1 I2], Bf as (Bp & F1 & F2), W as [N1 N2].
    destruct (IHn1 N1 W1 A1 F1 I1) as [_ E1], (IHn2 N2 W2 A2 F2 I2) as [_ E2].
    split; [reflexivity|]; intros ix _; cbn [tat]; apply P_pow; [exact Bp|apply E1; rewrite D1|apply E2; rewrite D2];
      apply in_box_nil; reflexivity.
  - destruct Hw as [W1 W2], Ag as (A1 & A2 & D), Ic as [I1 I2], Bf as [F1 F2], W as [N1 N2].
    eapply rel_crossed; [apply IHn1|apply IHn2|exact D| |]; auto.
  - destruct Hw as [W1 W2], Ag as (A1 & A2 & D), Ic as [I1 I2], Bf as [F1 F2], W as [N1 N2].
    eapply rel_crossed; [apply IHn1|apply IHn2|exact D| |]; auto.
  - destruct Hw as [W1 W2], Ag as (A1 & A2 & D), Ic as [I1 I2], Bf as [F1 F2], W as [N1 N2].
    eapply rel_crossed; [apply IHn1|apply IHn2|exact D| |]; auto.
  - destruct Hw as [W1 W2], Ag as (A1 & A2 & D), Ic as [I1 I2], Bf as [F1 F2], W as [N1 N2].
    eapply rel_crossed; [apply IHn1|apply IHn2|exact D| |]; auto.
  - destruct Hw as (W1 & W2 & _), Ic as [I1 I2], Bf as [F1 F2], W as [N1 N2].
    destruct axes as [|axes]; cbn [agrees] in Ag.
    + destruct Ag as [A1 A2]; eapply rel_outer; [| |apply IHn1; auto|apply IHn2; auto]; auto.
    + destruct Ag as (A1 & A2 & D); eapply rel_inner; [exact P_zero|exact P_add| |exact D|apply IHn1; auto|apply IHn2; auto]; auto.
Qed.
End Through.

(** * The exact values that go along *)
Section Homomorphism.
Context {A B : Type} {SA : Scalar A} {SB : Scalar B}.
Variable h : A -> B.
Hypothesis h_zero : h fzero = fzero.
Hypothesis h_add : forall x y, h (fadd x y) = fadd (h x) (h y).
Hypothesis h_sub : forall x y, h (fsub x y) = fsub (h x) (h y).
Hypothesis h_mul : forall x y, h (fmul x y) = fmul (h x) (h y).
Hypothesis h_div : forall x y, h (fdiv x y) = fdiv (h x) (h y).
Hypothesis h_pow : forall x y, h (fpow x y) = fpow (h x) (h y).
Hypothesis h_un : forall u, match u with Dirac | Sign | XLnX | Sigmoid => False | _ => True end ->
  forall x, h (un_fn u x) = un_fn u (h x).

Definition image (a : tensor A) (b : tensor B) : Prop := tdims a = tdims b /\ forall ix, h (tat a ix) = tat b ix.

Lemma image_at a b ix : image a b -> h (at_bc a ix) = at_bc b ix.
Proof. intros [D E]; unfold at_bc; rewrite <- D; apply E. Qed.

Lemma image_crossed op op' a b a' b' : (forall x y, h (op x y) = op' (h x) (h y)) -> image a a' -> image b b' ->
  image (crossed op a b) (crossed op' a' b').
Proof.
  intros H I J; assert (I1 := fun ix => image_at _ _ ix I); assert (J1 := fun ix => image_at _ _ ix J).
  destruct I as [D _], J as [D' _].
  assert (G : forall o o', (forall x y, h (o x y) = o' (h x) (h y)) -> image (pointwise o a b) (pointwise o' a' b')).
  { intros o o' Ho; unfold pointwise, image; cbn [tdims tat]; rewrite <- D, <- D'; split; [reflexivity|].
    intro ix; rewrite Ho, I1, J1; reflexivity. }
  unfold crossed; rewrite <- D, <- D'; destruct (tdims a), (tdims b) as [|? [|? ?]]; auto.
Qed.

Lemma image_sum {X} (l : list X) f g : (forall i, h (f i) = g i) -> h (sum_over l f) = sum_over l g.
Proof.
  intro H; unfold sum_over; rewrite <- h_zero; generalize (@fzero A SA).
  induction l as [|i l IH]; intro z; cbn [fold_left]; auto.
  rewrite IH, h_add, H; reflexivity.
Qed.

Lemma image_of (v : value A) : image (tensor_of v) (tensor_of (vmap h v)).
Proof.
  unfold image, tensor_of; cbn [tdims tat]; unfold vshape; rewrite vmap_bty; split; [reflexivity|]; intro ix.
  destruct v as [x|x y|l|ds a]; cbn [vat vmap]; auto.
  - destruct ix as [|[|[|k]] [|]]; auto.
  - destruct ix as [|k [|]]; auto; rewrite <- h_zero, map_nth; reflexivity.
  - revert ix; induction a as [x|l IH] using arr_ind2; intros [|i ix]; cbn [arr_get arr_map]; auto.
    rewrite nth_error_map; destruct (nth_error l i) as [a|] eqn:E; cbn [option_map]; auto.
    rewrite Forall_forall in IH; apply (IH a); eapply nth_error_In; eauto.
Qed.

Lemma vmap_again {X} (f : X -> A) (g : X -> B) : (forall x, h (f x) = g x) -> forall v : value X, vmap h (vmap f v) = vmap g v.
Proof.
  intros H [x|x y|l|ds a]; cbn [vmap]; rewrite ?H; auto.
  - f_equal; rewrite map_map; apply map_ext; exact H.
  - f_equal; induction a as [x|l IH] using arr_ind2; cbn [arr_map]; rewrite ?H; auto.
    f_equal; rewrite map_map; apply map_ext_in; rewrite Forall_forall in IH; exact IH.
Qed.

Lemma tree_image {X} (f : X -> A) (g : X -> B) (c : ctx X) n : (forall x, h (f x) = g x) -> branch_free n ->
  image (steps (ctx_through f c) (node_through f n)) (steps (ctx_through g c) (node_through g n)).
Proof.
  intro Hf; induction n; intro Bf; cbn [node_through steps]; try (split; [reflexivity|intro; exact h_zero]).
  - unfold var_tensor, ctx_through; destruct (c i); cbn [option_map]; [|split; [reflexivity|intro; exact h_zero]].
    rewrite <- (vmap_again f g Hf); apply image_of.
  - rewrite <- (vmap_again f g Hf); apply image_of.
  - assert (Bf' : branch_free n) by (destruct u; try contradiction; exact Bf).
    destruct (IHn Bf') as [D E]; split; [exact D|]; intro ix; cbn [tat]; rewrite <- E; apply h_un.
    destruct u; try contradiction; exact Logic.I.
  - destruct (IHn Bf) as [D E]; split; [reflexivity|]; intro ix; cbn [tat]; rewrite <- D; apply image_sum; exact E.
  - destruct Bf as [F1 F2], (IHn1 F1) as [_ E1], (IHn2 F2) as [_ E2]; split; [reflexivity|]; intro ix; cbn [tat].
    rewrite h_pow, E1, E2; reflexivity.
  - destruct Bf; apply image_crossed; auto.
  - destruct Bf; apply image_crossed; auto.
  - destruct Bf; apply image_crossed; auto.
  - destruct Bf; apply image_crossed; auto.
  - destruct Bf as [F1 F2]; assert (I1 := IHn1 F1); assert (I2 := IHn2 F2); clear IHn1 IHn2.
    revert I1 I2; generalize (steps (ctx_through f c) (node_through f n1)), (steps (ctx_through f c) (node_through f n2)),
      (steps (ctx_through g c) (node_through g n1)), (steps (ctx_through g c) (node_through g n2)); intros a b a' b' [D E] [D' E'].
    destruct axes as [|axes]; unfold image.
    + unfold outer_steps, outer; rewrite <- D, <- D'; destruct (tdims a); cbn [tdims tat];
        (split; [reflexivity|]); intro ix; rewrite h_mul, E, E'; reflexivity.
    + unfold inner_steps, inner; rewrite <- D, <- D'.
      destruct (tdims a) as [|? [|? [|? ?]]], (tdims b) as [|? [|? [|? ?]]]; cbn [tdims tat];
        (split; [reflexivity|]); intro ix; try (apply image_sum; intro); rewrite h_mul, E, E'; reflexivity.
Qed.
End Homomorphism.

Section Formats.
Context {prec emax : Z} {Fm : Format prec emax}.
Notation rnd := (Float_facts.rnd prec emax).
Notation uro := (Float_facts.uro prec).
Notation fvalid := (float_valid prec emax).
Notation foz := (float_of_Z prec emax).
Notation lowest := (3 - emax - prec)%Z.
Notation one_real := (Float_claims.one_real (prec := prec) (emax := emax)).
Notation one_valid := (Float_claims.one_valid (prec := prec) (emax := emax)).
Notation one_finite := (Float_claims.one_finite (prec := prec) (emax := emax)).
Notation abs_real := (Float_claims.abs_real (prec := prec) (emax := emax)).

Lemma top_bpow : top emax = bpow radix2 emax.
Proof.
  assert (FB : (2 <= prec < emax)%Z) by exact Fm; unfold top.
  rewrite <- (IZR_Zpower radix2 emax) by lia; rewrite pow_IZR; f_equal; rewrite Z2Nat.id by lia; reflexivity.
Qed.

Lemma tiny_pos : 0 < half_tiny prec emax.
Proof. apply Rinv_0_lt_compat, pow_lt; lra. Qed.

Lemma rnd_error z : Rabs (rnd z - z) <= uro * Rabs z + half_tiny prec emax.
Proof.
  assert (FB : (2 <= prec < emax)%Z) by exact Fm.
  destruct (error_N_FLT radix2 lowest prec ltac:(lia) (fun t => negb (Z.even t)) z) as (d & t & Hd & Ht & _ & E).
  change (round radix2 (FLT_exp lowest prec) ZnearestE z) with (rnd z) in E.
  rewrite (uro_bpow (prec := prec) (emax := emax)) in Hd.
  assert (T : / 2 * bpow radix2 lowest = half_tiny prec emax).
  { change (/ 2) with (bpow radix2 (-1)); rewrite <- bpow_plus; unfold half_tiny.
    replace (-1 + lowest)%Z with (- (emax + prec - 2))%Z by lia; rewrite bpow_opp; f_equal.
    rewrite <- (IZR_Zpower radix2) by lia; rewrite pow_IZR; f_equal; rewrite Z2Nat.id by lia; reflexivity. }
  rewrite T in Ht; unfold ZnearestE in E; rewrite E; replace (z * (1 + d) + t - z) with (z * d + t) by ring.
  apply Rle_trans with (1 := Rabs_triang _ _); rewrite Rabs_mult; assert (A := Rabs_pos z); nra.
Qed.

(** The computed number against its bound. *)
Definition meets (x : f64) (y : R * option R) : Prop :=
  fvalid x /\ match snd y with Some e => finite x /\ Rabs (f64_real x - fst y) <= e | None => True end.

Lemma capped_some m e e' : capped emax m e = Some e' -> e' = e /\ Rabs m + e < bpow radix2 emax.
Proof. unfold capped; destruct (Rlt_dec _ _); intros [= <-]; rewrite <- top_bpow; auto. Qed.

Lemma within_top x m e : Rabs (x - m) <= e -> Rabs x <= Rabs m + e.
Proof. intro H; replace x with (m + (x - m)) by ring; apply Rle_trans with (1 := Rabs_triang _ _); lra. Qed.

Lemma rounded z m e t e1 : Rabs (z - m) <= e -> Rabs (rnd z - z) <= uro * Rabs z + t ->
  after_rounding prec emax t m e = Some e1 -> Rabs (rnd z - m) <= e1 /\ Rabs (rnd z) < bpow radix2 emax.
Proof.
  intros H K; unfold after_rounding; change (half_ulp prec) with uro.
  assert (U : 0 < uro) by (apply Float_facts.uro_pos).
  assert (G : capped emax m (e + uro * (Rabs m + e) + t) = Some e1 -> Rabs (rnd z - m) <= e1 /\ Rabs (rnd z) < bpow radix2 emax).
  { intro C; apply capped_some in C; destruct C as [-> C].
    assert (L : Rabs (rnd z - m) <= e + uro * (Rabs m + e) + t).
    { replace (rnd z - m) with ((rnd z - z) + (z - m)) by ring; apply Rle_trans with (1 := Rabs_triang _ _).
      assert (Q := within_top _ _ _ H); assert (uro * Rabs z <= uro * (Rabs m + e)) by (apply Rmult_le_compat_l; lra); lra. }
    split; [exact L|]; apply Rle_lt_trans with (2 := C), within_top, L. }
  destruct (Req_EM_T e 0) as [->|_]; auto; destruct (small_whole prec m) eqn:Sw; auto; intros [= <-].
  assert (z = m) by (assert (A := Rabs_pos (z - m)); assert (B : Rabs (z - m) = 0) by lra;
    destruct (Req_EM_T (z - m) 0) as [E|E]; [lra|apply Rabs_no_R0 in E; lra]); subst z.
  unfold small_whole in Sw; destruct (Req_EM_T m _) as [E|]; [|discriminate]; apply Z.leb_le in Sw; rewrite E.
  rewrite (rnd_id _ (int_format _ Sw)); split; [|apply (int_small (prec := prec)); exact Sw].
  unfold Rminus; rewrite Rplus_opp_r, Rabs_R0; lra.
Qed.

Lemma both_some x y f e : both_bounds x y f = Some e -> exists a b, x = Some a /\ y = Some b /\ f a b = Some e.
Proof. destruct x, y; try discriminate; intro H; eauto. Qed.

Lemma exactly_zero_true m e : exactly_zero m e = true -> m = 0 /\ e = 0.
Proof.
  unfold exactly_zero, R_eqb; destruct (Req_EM_T m 0), (Req_EM_T e 0); try discriminate; auto.
Qed.

Lemma abs_zero x e : Rabs x <= e -> e = 0 -> x = 0.
Proof. intros H ->; destruct (Req_EM_T x 0) as [|N]; auto; apply Rabs_no_R0 in N; assert (A := Rabs_pos x); lra. Qed.

Lemma rnd_float x : fvalid x -> rnd (f64_real x) = f64_real x.
Proof. intro V; apply rnd_id, valid_format; exact V. Qed.

Lemma float_small x : fvalid x -> Rabs (f64_real x) < bpow radix2 emax.
Proof.
  intro V; destruct (valid_B x V) as [b ->]; rewrite f64_real_B; apply BinarySingleNaN.abs_B2R_lt_emax.
Qed.

Lemma meets_add x x' y y' : meets x x' -> meets y y' -> meets (SFadd prec emax x y) (fst x' + fst y', added prec emax x' y').
Proof.
  intros [Vx Hx] [Vy Hy]; destruct (add_real x y Vx Vy) as (V & Re & Fi); split; [exact V|]; cbn [fst snd].
  destruct (added prec emax x' y') as [e|] eqn:E; [|exact Logic.I].
  apply both_some in E; destruct E as (p & q & Ex & Ey & E); rewrite Ex in Hx; rewrite Ey in Hy.
  destruct Hx as [Fx Hx], Hy as [Fy Hy].
  assert (S : forall w, rnd (f64_real x + f64_real y) = w -> Rabs w < bpow radix2 emax -> Rabs (w - (fst x' + fst y')) <= e ->
    finite (SFadd prec emax x y) /\ Rabs (f64_real (SFadd prec emax x y) - (fst x' + fst y')) <= e).
  { intros w <- L D; assert (F : finite (SFadd prec emax x y)) by (apply Fi; auto); split; [exact F|rewrite Re by exact F; exact D]. }
  destruct (exactly_zero (fst x') p) eqn:Z1; [|destruct (exactly_zero (fst y') q) eqn:Z2].
  - apply exactly_zero_true in Z1; destruct Z1 as [Z1 ->]; injection E as <-; rewrite Z1, Rminus_0_r in Hx.
    apply abs_zero in Hx; [|reflexivity]; apply (S (f64_real y)).
    + rewrite Hx, Rplus_0_l; apply rnd_float; exact Vy.
    + apply float_small; exact Vy.
    + rewrite Z1, Rplus_0_l; exact Hy.
  - apply exactly_zero_true in Z2; destruct Z2 as [Z2 ->]; injection E as <-; rewrite Z2, Rminus_0_r in Hy.
    apply abs_zero in Hy; [|reflexivity]; apply (S (f64_real x)).
    + rewrite Hy, Rplus_0_r; apply rnd_float; exact Vx.
    + apply float_small; exact Vx.
    + rewrite Z2, Rplus_0_r; exact Hx.
  - apply (rounded (f64_real x + f64_real y)) in E.
    + destruct E as [E L]; apply (S _ eq_refl L E).
    + replace (f64_real x + f64_real y - (fst x' + fst y')) with ((f64_real x - fst x') + (f64_real y - fst y')) by ring.
      apply Rle_trans with (1 := Rabs_triang _ _); lra.
    + destruct (rnd_sum x y Vx Vy) as (d & Hd & Ed); rewrite Ed.
      replace ((f64_real x + f64_real y) * (1 + d) - (f64_real x + f64_real y)) with ((f64_real x + f64_real y) * d) by ring.
      rewrite Rabs_mult; assert (A := Rabs_pos (f64_real x + f64_real y)); nra.
Qed.

Lemma meets_neg x x' : meets x x' -> meets (SFopp x) (- fst x', snd x').
Proof.
  intros [V H]; split; [apply opp_valid; exact V|]; cbn [fst snd]; destruct (snd x'); auto.
  destruct H as [F H]; split; [apply opp_finite; exact F|]; rewrite opp_real.
  replace (- f64_real x - - fst x') with (- (f64_real x - fst x')) by ring; rewrite Rabs_Ropp; exact H.
Qed.

Lemma zero_opp m e : exactly_zero (- m) e = exactly_zero m e.
Proof. unfold exactly_zero, R_eqb; destruct (Req_EM_T (- m) 0), (Req_EM_T m 0); auto; lra. Qed.

Lemma meets_sub x x' y y' : meets x x' -> meets y y' -> meets (SFsub prec emax x y) (fst x' - fst y', subtracted prec emax x' y').
Proof.
  intros H K; assert (A := meets_add _ _ _ _ H (meets_neg _ _ K)); cbn [fst] in A.
  assert (E : subtracted prec emax x' y' = added prec emax x' (- fst y', snd y')).
  { unfold subtracted, added; cbn [fst snd]; destruct (snd x'), (snd y'); cbn [both_bounds]; auto.
    rewrite zero_opp; reflexivity. }
  rewrite E; destruct H as [Vx Hx], K as [Vy Hy].
  destruct A as [_ A], (sub_real x y Vx Vy) as (V & Re & Fi), (add_real x (SFopp y) Vx (opp_valid _ Vy)) as (_ & Re' & Fi').
  split; [exact V|]; cbn [fst snd] in *; destruct (added prec emax x' (- fst y', snd y')) as [e|] eqn:Q; auto.
  destruct A as [F A]; rewrite Re' in A by exact F; rewrite opp_real in *.
  assert (Fx : finite x /\ finite y).
  { apply both_some in Q; destruct Q as (p & q & Ex & Ey & _); cbn [snd] in Ey; rewrite Ex in Hx; rewrite Ey in Hy; tauto. }
  assert (L : Rabs (rnd (f64_real x + - f64_real y)) < bpow radix2 emax).
  { rewrite <- Re' by exact F; apply float_small, add_real; auto using opp_valid. }
  assert (F' : finite (SFsub prec emax x y)) by (apply Fi; tauto).
  split; [exact F'|]; rewrite Re by exact F'; exact A.
Qed.

Lemma product_error p q m n e f : Rabs (p - m) <= e -> Rabs (q - n) <= f ->
  Rabs (p * q - m * n) <= Rabs m * f + Rabs n * e + e * f.
Proof.
  intros H K; replace (p * q - m * n) with (m * (q - n) + n * (p - m) + (p - m) * (q - n)) by ring.
  apply Rle_trans with (1 := Rabs_triang _ _), Rplus_le_compat.
  - apply Rle_trans with (1 := Rabs_triang _ _); rewrite !Rabs_mult; apply Rplus_le_compat; apply Rmult_le_compat_l; auto using Rabs_pos.
  - rewrite Rabs_mult; apply Rmult_le_compat; auto using Rabs_pos.
Qed.

Lemma meets_mul x x' y y' : meets x x' -> meets y y' -> meets (SFmul prec emax x y) (fst x' * fst y', multiplied prec emax x' y').
Proof.
  intros [Vx Hx] [Vy Hy]; destruct (mul_real x y Vx Vy) as (V & Re & Fi); split; [exact V|]; cbn [fst snd].
  destruct (multiplied prec emax x' y') as [e|] eqn:E; [|exact Logic.I].
  apply both_some in E; destruct E as (p & q & Ex & Ey & E); rewrite Ex in Hx; rewrite Ey in Hy.
  destruct Hx as [Fx Hx], Hy as [Fy Hy].
  apply (rounded (f64_real x * f64_real y)) in E; [|apply product_error; auto|apply rnd_error].
  destruct E as [E L]; assert (F : finite (SFmul prec emax x y)) by (apply Fi; auto).
  split; [exact F|rewrite Re by exact F; exact E].
Qed.

Lemma quotient_error p q m n e f : Rabs (p - m) <= e -> Rabs (q - n) <= f -> f < Rabs n ->
  q <> 0 /\ Rabs (p / q - m / n) <= (e * Rabs n + Rabs m * f) / ((Rabs n - f) * Rabs n).
Proof.
  intros H K L; assert (A := Rabs_pos (q - n)); assert (N : n <> 0) by (intros ->; rewrite Rabs_R0 in L; lra).
  assert (Q : Rabs n - f <= Rabs q).
  { assert (T := Rabs_triang_inv n (n - q)); replace (n - (n - q)) with q in T by ring; rewrite Rabs_minus_sym in K; lra. }
  assert (Q0 : q <> 0) by (intros ->; rewrite Rabs_R0 in Q; lra).
  split; [exact Q0|]; replace (p / q - m / n) with (((p - m) * n - m * (q - n)) / (q * n)) by (field; auto).
  unfold Rdiv; rewrite Rabs_mult; apply Rmult_le_compat; auto using Rabs_pos.
  - unfold Rminus at 1; apply Rle_trans with (1 := Rabs_triang _ _); rewrite Rabs_Ropp, !Rabs_mult; apply Rplus_le_compat.
    + apply Rmult_le_compat_r; auto using Rabs_pos.
    + apply Rmult_le_compat_l; auto using Rabs_pos.
  - rewrite Rabs_inv, Rabs_mult; apply Rinv_le_contravar; [apply Rmult_lt_0_compat; lra|].
    apply Rmult_le_compat_r; auto using Rabs_pos.
Qed.

Lemma div_valid x y : fvalid x -> fvalid y -> fvalid (SFdiv prec emax x y).
Proof. intros X Y; destruct (valid_B x X) as [a ->], (valid_B y Y) as [b ->]; rewrite div_same; apply B_valid. Qed.

Lemma meets_div x x' y y' : meets x x' -> meets y y' -> meets (SFdiv prec emax x y) (fst x' / fst y', divided prec emax x' y').
Proof.
  intros [Vx Hx] [Vy Hy]; split; [apply div_valid; auto|]; cbn [fst snd].
  destruct (divided prec emax x' y') as [e|] eqn:E; [|exact Logic.I].
  apply both_some in E; destruct E as (p & q & Ex & Ey & E); rewrite Ex in Hx; rewrite Ey in Hy.
  destruct Hx as [Fx Hx], Hy as [Fy Hy]; destruct (Rlt_dec q (Rabs (fst y'))) as [L|]; [|discriminate].
  destruct (quotient_error _ _ _ _ _ _ Hx Hy L) as [N Qe]; destruct (div_real x y Vx Vy N) as (_ & Re & Fi).
  apply (rounded (f64_real x / f64_real y)) in E; [|exact Qe|apply rnd_error].
  destruct E as [E T]; assert (F : finite (SFdiv prec emax x y)) by (apply Fi; auto).
  split; [exact F|rewrite Re by exact F; exact E].
Qed.

Lemma meets_abs x x' : meets x x' -> meets (SFabs x) (Rabs (fst x'), snd x').
Proof.
  intros [V H]; destruct (abs_real x) as (E & Va & Fa); split; [auto|]; cbn [fst snd]; destruct (snd x'); auto.
  destruct H as [F H]; split; [apply Fa; exact F|]; rewrite E.
  apply Rle_trans with (2 := H); apply Rabs_triang_inv2.
Qed.

(** Library functions. *)
Section Library.
Variables (a b inf : R) (sp : libfn -> R -> R) (pow : f64 -> f64 -> f64) (lib : libfn -> f64 -> f64).
#[local] Instance s64e : Scalar f64 := float_scalar prec emax pow lib.
#[local] Instance bse : Scalar (R * option R) := bounds_scalar prec emax a b inf sp.
Hypothesis ac : accurate prec emax a b pow lib.

Lemma from_library r y m e e1 : close emax a b r y -> Rabs (y - m) <= e -> after_library emax a b m e = Some e1 ->
  finite r /\ Rabs (f64_real r - m) <= e1.
Proof.
  intros Hc H C; apply capped_some in C; destruct C as [-> C]; destruct (ac_signs _ _ _ _ _ _ ac) as [A B].
  assert (Q := within_top _ _ _ H).
  assert (Qa : a * Rabs y <= a * (Rabs m + e)) by (apply Rmult_le_compat_l; lra).
  destruct Hc as [F D]; [rewrite top_bpow; lra|]; split; [exact F|].
  replace (f64_real r - m) with ((f64_real r - y) + (y - m)) by ring; apply Rle_trans with (1 := Rabs_triang _ _); lra.
Qed.

Lemma two_exact y : fvalid y -> f64_real y = 2 -> y = foz 2.
Proof.
  intros V E; assert (T := room_two (prec := prec) (emax := emax)); destruct (of_Z_small (prec := prec) (emax := emax) 2) as [_ R2]; [exact T|].
  apply (same_float (prec := prec) (emax := emax)); auto; [apply of_Z_real|rewrite R2; exact E|rewrite E; lra].
Qed.

Lemma meets_pow x x' y y' : meets x x' -> meets y y' -> meets (pow x y) (R_pow (fst x') (fst y'), raised emax a b x' y').
Proof.
  intros [Vx Hx] [Vy Hy]; split; [apply (ac_pow _ _ _ _ _ _ ac); auto|]; cbn [fst snd].
  destruct (raised emax a b x' y') as [e|] eqn:E; [|exact Logic.I].
  apply both_some in E; destruct E as (p & q & Ex & Ey & E); rewrite Ex in Hx; rewrite Ey in Hy.
  destruct Hx as [Fx Hx], Hy as [Fy Hy]; unfold R_eqb in E.
  destruct (Req_EM_T (fst y') 2) as [T|]; [|discriminate]; destruct (Req_EM_T q 0) as [->|]; [|discriminate]; cbn [andb] in E.
  rewrite T in *; apply abs_zero in Hy; [|reflexivity]; rewrite (two_exact y Vy) by lra.
  replace (R_pow (fst x') 2) with (fst x' * fst x') by (rewrite <- R_pow_two; f_equal; ring).
  apply (from_library (pow x (foz 2)) (f64_real x * f64_real x)) in E; [exact E|apply (ac_square _ _ _ _ _ _ ac); auto|].
  apply Rle_trans with (1 := product_error _ _ _ _ _ _ Hx Hx); right; ring.
Qed.

Lemma exp_error x m e : Rabs (x - m) <= e -> Rabs (exp x - exp m) <= exp (m + e) - exp m.
Proof.
  intro H; assert (He : -e <= x - m <= e) by (revert H; unfold Rabs; destruct (Rcase_abs (x - m)); lra).
  clear H; apply Rabs_le; split.
  - assert (Up : exp m * exp (- e) <= exp x) by (rewrite <- exp_plus; destruct (Req_EM_T (m + - e) x) as [->|N]; [lra|left; apply exp_increasing; lra]).
    rewrite exp_plus; assert (E1 := exp_pos m); assert (E2 := exp_pos e).
    assert (E3 : exp e * exp (- e) = 1) by (rewrite <- exp_plus, Rplus_opp_r; apply exp_0).
    assert (E4 : 2 <= exp e + exp (- e)) by (assert (Q1 := exp_ineq1_le e); assert (Q2 := exp_ineq1_le (- e)); lra).
    assert (E5 := Rmult_le_compat_l _ _ _ (Rlt_le _ _ E1) E4); lra.
  - assert (exp x <= exp (m + e)) by (destruct (Req_EM_T x (m + e)) as [->|N]; [lra|left; apply exp_increasing; lra]); lra.
Qed.

Lemma ln_mono x y : 0 < x -> x <= y -> ln x <= ln y.
Proof. intros P [L| ->]; [left; apply ln_increasing; auto|lra]. Qed.

Lemma ln_error x m e : Rabs (x - m) <= e -> e < m -> 0 < x /\ Rabs (ln x - ln m) <= ln m - ln (m - e).
Proof.
  intros H L; assert (A := Rabs_pos (x - m)); assert (He : -e <= x - m <= e) by (revert H; unfold Rabs; destruct (Rcase_abs (x - m)); lra); clear H; split; [lra|]; apply Rabs_le; split.
  - assert (ln (m - e) <= ln x) by (apply ln_mono; lra); lra.
  - assert (ln x <= ln (m + e)) by (apply ln_mono; lra).
    assert (ln (m - e) + ln (m + e) <= ln m + ln m); [|lra].
    rewrite <- !ln_mult by lra; apply ln_mono; nra.
Qed.

Lemma lipschitz (f f' : R -> R) : (forall x, derivable_pt_lim f x (f' x)) -> (forall x, Rabs (f' x) <= 1) ->
  forall x y, Rabs (f x - f y) <= Rabs (x - y).
Proof.
  intros D L; assert (W : forall x y, x < y -> Rabs (f y - f x) <= Rabs (y - x)).
  { intros x y H; destruct (MVT_cor2 f f' x y H) as (z & E & _); [intros; apply D|].
    rewrite E, Rabs_mult; assert (A := Rabs_pos (y - x)); specialize (L z); nra. }
  intros x y; destruct (Rtotal_order x y) as [H|[->|H]].
  - rewrite (Rabs_minus_sym (f x)), (Rabs_minus_sym x); auto.
  - unfold Rminus; rewrite !Rplus_opp_r; lra.
  - auto.
Qed.

Lemma sin_error x m e : Rabs (x - m) <= e -> Rabs (sin x - sin m) <= e.
Proof.
  intro H; apply Rle_trans with (2 := H); apply (lipschitz sin cos); [apply derivable_pt_lim_sin|].
  intro z; destruct (COS_bound z); apply Rabs_le; lra.
Qed.

Lemma cos_error x m e : Rabs (x - m) <= e -> Rabs (cos x - cos m) <= e.
Proof.
  intro H; apply Rle_trans with (2 := H); apply (lipschitz cos (fun z => - sin z)); [apply derivable_pt_lim_cos|].
  intro z; destruct (SIN_bound z); apply Rabs_le; lra.
Qed.

Lemma meets_lib f x x' : meets x x' -> meets (lib f x) (R_lib sp f (fst x'), applied emax a b f x').
Proof.
  intros [Vx Hx]; split; [apply (ac_lib _ _ _ _ _ _ ac); auto|]; cbn [fst snd].
  assert (K := fun H => ac_known _ _ _ _ _ _ ac f x H Vx); unfold applied; destruct f; try exact Logic.I;
    destruct (snd x') as [e|]; try exact Logic.I; destruct Hx as [Fx Hx]; cbn [R_lib] in *.
  - destruct (after_library _ _ _ _ _) as [e1|] eqn:E; [|exact Logic.I].
    apply (from_library _ _ _ _ _ (K Logic.I Fx ltac:(discriminate)) (cos_error _ _ _ Hx) E).
  - destruct (after_library _ _ _ _ _) as [e1|] eqn:E; [|exact Logic.I].
    apply (from_library _ _ _ _ _ (K Logic.I Fx ltac:(discriminate)) (sin_error _ _ _ Hx) E).
  - destruct (Rlt_dec e (fst x')) as [L|]; [|exact Logic.I].
    destruct (after_library _ _ _ _ _) as [e1|] eqn:E; [|exact Logic.I].
    destruct (ln_error _ _ _ Hx L) as [Px Hl].
    apply (from_library _ _ _ _ _ (K Logic.I Fx (fun _ => Px)) Hl E).
  - destruct (after_library _ _ _ _ _) as [e1|] eqn:E; [|exact Logic.I].
    apply (from_library _ _ _ _ _ (K Logic.I Fx ltac:(discriminate)) (exp_error _ _ _ Hx) E).
Qed.

Lemma meets_exact x : fvalid x -> finite x -> meets x (f64_real x, Some 0).
Proof. intros V F; split; [exact V|]; cbn; split; [exact F|]; unfold Rminus; rewrite Rplus_opp_r, Rabs_R0; lra. Qed.

Lemma meets_zero : meets f64_zero (0, Some 0).
Proof. apply (meets_exact f64_zero); [reflexivity|exact Logic.I]. Qed.

Lemma meets_one : meets (foz 1) (1, Some 0).
Proof. assert (M := meets_exact (foz 1) one_valid one_finite); rewrite one_real in M; exact M. Qed.


Lemma meets_plain u : plain_op u -> forall x x', meets x x' -> meets (un_fn u x) (un_fn u x').
Proof.
  intros Hu x x' H; assert (O := meets_one); destruct u; try contradiction; cbn [un_fn].
  - exact (meets_sub _ _ _ _ H O).
  - exact (meets_sub _ _ _ _ O H).
  - exact (meets_add _ _ _ _ H O).
  - exact (meets_mul _ _ _ _ (meets_add _ _ _ _ O O) H).
  - exact (meets_neg _ _ H).
  - exact (meets_abs _ _ H).
  - exact (meets_mul _ _ _ _ H (meets_sub _ _ _ _ O H)).
Qed.

Lemma enclosed_ops (ok : unop -> Prop) (pw : Prop) (c c' : ctx f64) n v ix :
  (pw -> forall x x' y y', meets x x' -> meets y y' -> meets (fpow x y) (fpow x' y')) ->
  (forall u, ok u -> forall x x', meets x x' -> meets (un_fn u x) (un_fn u x')) ->
  ctx_wf c -> node_wf n -> written c n -> branch_free n -> ops_in ok pw n -> inputs_all (fun x => fvalid x /\ finite x) c n ->
  evaluate n c = (c', Ok v) -> in_box (dims (vshape v)) ix ->
  fst (tat (error_bounds prec emax a b inf sp c n) ix) = tat (real_value inf sp c n) ix /\
  forall e, snd (tat (error_bounds prec emax a b inf sp c n) ix) = Some e ->
    finite (vat f64_zero v ix) /\ Rabs (f64_real (vat f64_zero v ix) - tat (real_value inf sp c n) ix) <= e.
Proof.
  intros Pp Pu Wc W Hw Bf Op I H Bx; destruct (steps_claim c c' n v Wc W Hw H) as (-> & Wv & D & E).
  assert (Ag := evaluate_agrees c n Wc c v W Hw H).
  set (g := fun x : f64 => (f64_real x, Some 0)).
  assert (T : rel meets (steps c n) (steps (ctx_through g c) (node_through g n))).
  { apply (tree_through meets g ok pw); auto.
    - exact meets_zero.
    - exact meets_add.
    - exact meets_sub.
    - exact meets_mul.
    - exact meets_div.
    - eapply inputs_weaken; [|exact I]; intros x [V F]; apply meets_exact; auto. }
  assert (Ex : fst (tat (error_bounds prec emax a b inf sp c n) ix) = tat (real_value inf sp c n) ix).
  { refine (proj2 (@tree_image (R * option R) R _ (R_scalar inf sp) fst eq_refl (fun _ _ => eq_refl) (fun _ _ => eq_refl)
      (fun _ _ => eq_refl) (fun _ _ => eq_refl) (fun _ _ => eq_refl) _ f64 g f64_real c n (fun _ => eq_refl) Bf) ix).
    intros u Hu x; destruct u; try contradiction; reflexivity. }
  split; [exact Ex|]; intros e He; rewrite <- Ex.
  rewrite D in Bx; change (vat f64_zero v ix) with (vat fzero v ix); rewrite (E ix Bx).
  assert (M : meets (tat (steps c n) ix) (tat (error_bounds prec emax a b inf sp c n) ix)) by exact (proj2 T ix Bx).
  destruct M as [_ M]; rewrite He in M; exact M.
Qed.

Lemma enclosed (c c' : ctx f64) n v ix :
  ctx_wf c -> node_wf n -> written c n -> branch_free n -> inputs_all (fun x => fvalid x /\ finite x) c n ->
  evaluate n c = (c', Ok v) -> in_box (dims (vshape v)) ix ->
  fst (tat (error_bounds prec emax a b inf sp c n) ix) = tat (real_value inf sp c n) ix /\
  forall e, snd (tat (error_bounds prec emax a b inf sp c n) ix) = Some e ->
    finite (vat f64_zero v ix) /\ Rabs (f64_real (vat f64_zero v ix) - tat (real_value inf sp c n) ix) <= e.
Proof.
  intros Wc W Hw Bf; apply (enclosed_ops free_op True c c' n v ix); auto using branch_free_ops.
  - intros _; exact meets_pow.
  - intros u Hu x x' H; destruct u; try contradiction; try (apply meets_plain; [exact Logic.I|exact H]);
      try exact (meets_lib _ _ _ H).
    exact (meets_pow _ _ _ _ H (meets_add _ _ _ _ meets_one meets_one)).
Qed.
End Library.

Lemma enclosed_arithmetic (inf : R) (sp : libfn -> R -> R) (pow : f64 -> f64 -> f64) (lib : libfn -> f64 -> f64) :
  let S := float_scalar prec emax pow lib in
  forall (c c' : ctx f64) n v ix,
  ctx_wf c -> node_wf n -> written c n -> library_free n -> inputs_all (fun x => fvalid x /\ finite x) c n ->
  evaluate n c = (c', Ok v) -> in_box (dims (vshape v)) ix ->
  fst (tat (error_bounds prec emax 0 0 inf sp c n) ix) = tat (real_value inf sp c n) ix /\
  forall e, snd (tat (error_bounds prec emax 0 0 inf sp c n) ix) = Some e ->
    finite (vat f64_zero v ix) /\ Rabs (f64_real (vat f64_zero v ix) - tat (real_value inf sp c n) ix) <= e.
Proof.
  intros S c c' n v ix Wc W Hw Lf.
  apply (enclosed_ops 0 0 inf sp pow lib plain_op False c c' n v ix); auto using library_free_ops, library_branch_free.
  - contradiction.
  - apply meets_plain.
Qed.
End Formats.

(** * Functions as accurate as a format allows *)
Section Nearest.
Context {prec emax : Z} {Fm : Format prec emax}.
Notation rnd := (Float_facts.rnd prec emax).
Notation uro := (Float_facts.uro prec).
Notation fvalid := (float_valid prec emax).
Notation lowest := (3 - emax - prec)%Z.

Definition nearest (y : R) : f64 :=
  SpecFloat.binary_normalize prec emax (ZnearestE (scaled_mantissa radix2 (FLT_exp lowest prec) y))
    (cexp radix2 (FLT_exp lowest prec) y) false.

Lemma nearest_real y : fvalid (nearest y) /\
  (Rabs (rnd y) < bpow radix2 emax -> finite (nearest y) /\ f64_real (nearest y) = rnd y).
Proof.
  unfold nearest; rewrite normalize_same; split; [apply B_valid|]; intro L.
  match goal with |- context [BinarySingleNaN.binary_normalize _ _ _ _ _ ?m ?e false] =>
    assert (H := BinarySingleNaN.binary_normalize_correct prec emax prec_pos prec_emax BinarySingleNaN.mode_NE m e false);
    assert (E : F2R (Float radix2 m e) = rnd y) by reflexivity end.
  cbv zeta in H; rewrite E in H.
  change (round radix2 _ _ (rnd y)) with (rnd (rnd y)) in H.
  assert (I : rnd (rnd y) = rnd y).
  { apply rnd_id; apply generic_format_round; [apply FLT_exp_valid, prec_pos|apply valid_rnd_N]. }
  rewrite I, Rlt_bool_true in H by exact L; destruct H as (H1 & H2 & _); rewrite f64_real_B, finite_B; auto.
Qed.

Lemma nearest_close y : close emax uro (half_tiny prec emax) (nearest y) y.
Proof.
  intro L; rewrite top_bpow in L; assert (E := rnd_error y).
  destruct (nearest_real y) as [_ N]; destruct N as [F ->]; [|split; auto].
  apply Rle_lt_trans with (2 := L); apply Rle_trans with (1 := within_top _ _ _ E); lra.
Qed.

Lemma nearest_accurate : accurate prec emax (half_ulp prec) (half_tiny prec emax)
  (fun x _ => nearest (f64_real x * f64_real x)) (fun f x => nearest (R_lib (fun _ y => y) f (f64_real x))).
Proof.
  split; intros.
  - split; [left; apply (Float_facts.uro_pos)|left; apply tiny_pos].
  - apply nearest_real.
  - apply nearest_real.
  - apply nearest_close.
  - apply nearest_close.
Qed.
End Nearest.
