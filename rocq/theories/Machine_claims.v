(** Claims about machine integers, in the form used by Properties_machine.v. *)
From Coq Require Import List Arith ZArith Bool Lia.
Import ListNotations.
From Verif Require Import Base Shapes Scalar Buffers Spec Contraction Node Eval Types Instances
  Vocab Math Float_math Machine Machine_math Contraction_entries Math_facts Shortcut_facts
  Gradient_claims Machine_facts.
Local Open Scope Z_scope.

Definition total {I} (l : list I) (f : I -> Z) : Z := fold_right (fun k s => f k + s) 0 l.

Lemma fold_total (I : Type) (l : list I) (f : I -> Z) z :
  fold_left (fun a k => a + f k) l z = z + total l f.
Proof.
  revert z; induction l as [|k l IH]; intro z; cbn [fold_left total fold_right]; [lia|].
  rewrite IH; unfold total; lia.
Qed.

Lemma sum_exact (I : Type) (l : list I) (f : I -> Z) : @sum_over Z Z_scalar I l f = total l f.
Proof. unfold sum_over; cbn [fadd fzero Z_scalar]; rewrite fold_total; lia. Qed.
Lemma sum_size (I : Type) (l : list I) (f : I -> Z) : @sum_over Z size_int I l f = total l f.
Proof. unfold sum_over; cbn [fadd fzero size_int]; rewrite fold_total; lia. Qed.

Lemma divisors_true {E} {SE : Scalar E} (c : ctx E) n : divisors_all (fun _ => True) c n.
Proof. induction n; cbn [divisors_all]; auto. Qed.

Lemma divisors_ctx {E} {SE : Scalar E} P (c c' : ctx E) n : (forall i, c i = c' i) ->
  divisors_all P c n -> divisors_all P c' n.
Proof.
  intro H; induction n; cbn [divisors_all]; rewrite ?(den_ctx un_fn c' c) by (intro; symmetry; apply H); tauto.
Qed.

Section Width.
Variables (s : bool) (w : Z).
Hypothesis wide : 8 <= w.

Lemma half : 2 ^ w = 2 * 2 ^ (w - 1).
Proof. rewrite <- Z.pow_succ_r by lia; f_equal; lia. Qed.
Lemma half_big : 128 <= 2 ^ (w - 1).
Proof. change 128 with (2 ^ 7); apply Z.pow_le_mono_r; lia. Qed.
Lemma max_min : int_max s w = int_min s w + 2 ^ w - 1.
Proof. unfold int_max, int_min; assert (H := half); destruct s; lia. Qed.
Lemma min_max : int_min s w <= 0 /\ 127 <= int_max s w.
Proof. unfold int_max, int_min; assert (H := half); assert (K := half_big); destruct s; lia. Qed.
Lemma modulus_pos : 0 < 2 ^ w.
Proof. assert (H := half); assert (K := half_big); lia. Qed.

(** Wrapping. *)
Definition same (a b : Z) : Prop := exists k, a = b + k * 2 ^ w.
Lemma same_refl a : same a a. Proof. exists 0; lia. Qed.
Lemma same_sym a b : same a b -> same b a. Proof. intros [k ->]; exists (- k); lia. Qed.
Lemma same_trans a b c : same a b -> same b c -> same a c.
Proof. intros [k ->] [l ->]; exists (l + k); lia. Qed.
Lemma same_add a b c d : same a b -> same c d -> same (a + c) (b + d).
Proof. intros [k ->] [l ->]; exists (k + l); lia. Qed.
Lemma same_opp a b : same a b -> same (- a) (- b).
Proof. intros [k ->]; exists (- k); lia. Qed.
Lemma same_mul a b c d : same a b -> same c d -> same (a * c) (b * d).
Proof. intros [k ->] [l ->]; exists (b * l + k * d + k * l * 2 ^ w); ring. Qed.

Lemma wrap_range z : in_range s w (wrap s w z).
Proof.
  unfold in_range, wrap; rewrite max_min; assert (K := Z.mod_pos_bound (z - int_min s w) (2 ^ w) modulus_pos); lia.
Qed.
Lemma wrap_same z : same (wrap s w z) z.
Proof.
  unfold wrap, same; exists (- ((z - int_min s w) / 2 ^ w)).
  assert (K := Z.div_mod (z - int_min s w) (2 ^ w)); assert (P := modulus_pos); lia.
Qed.
Lemma same_wrap a b : same a b -> wrap s w a = wrap s w b.
Proof.
  intros [k ->]; unfold wrap; f_equal.
  replace (b + k * 2 ^ w - int_min s w) with (b - int_min s w + k * 2 ^ w) by ring.
  apply Z.mod_add; assert (P := modulus_pos); lia.
Qed.
Lemma wrap_id z : in_range s w z -> wrap s w z = z.
Proof.
  unfold in_range, wrap; rewrite max_min; intro H; rewrite Z.mod_small; lia.
Qed.
Lemma wrap_of x e : same x e -> wrap s w x = wrap s w e. Proof. apply same_wrap. Qed.

Definition wraps (x e a : Z) : Prop := x = wrap s w e.
Lemma wraps_same x e a : wraps x e a -> same x e.
Proof. intros ->; apply wrap_same. Qed.

Lemma total_same (I : Type) (l : list I) (g : I -> Z) z :
  (forall k, In k l -> same z (g k)) -> same (Z.of_nat (length l) * z) (total l g).
Proof.
  induction l as [|k l IH]; intro H; [exists 0; cbn; lia|].
  replace (Z.of_nat (length (k :: l)) * z) with (z + Z.of_nat (length l) * z)
    by (cbn [length]; rewrite Nat2Z.inj_succ; ring).
  apply same_add; [apply H; left; reflexivity|apply IH; intros j Hj; apply H; right; exact Hj].
Qed.

Lemma wrapping_value c c' n v :
  ctx_wf c -> node_wf n -> integer_ops True False n -> @regular Z Z_scalar (@un_fn Z Z_scalar) c n ->
  inputs_all (in_range s w) c n ->
  @evaluate Z (wrapping_int s w) n c = (c', Ok v) ->
  dims (vshape v) = tdims (exact_integer c n) /\
  forall d ix, in_box (dims (vshape v)) ix -> vat d v ix = wrap s w (tat (exact_integer c n) ix).
Proof.
  intros Wc W Io Rg [Iv Ik] H.
  assert (Sm : forall x : Z, (fun x => x) x = x) by reflexivity.
  assert (Ed : @den Z Z_scalar (@un_fn Z Z_scalar) (ctx_through (fun x => x) c) (node_through (fun x => x) n)
               = exact_integer c n).
  { rewrite (node_same _ Sm); apply den_ctx; apply (ctx_same _ Sm). }
  assert (Lw : forall x, in_range s w x -> wraps x x x) by (intros x Hx; symmetry; apply wrap_id; exact Hx).
  destruct (@value_follow Z Z Z (wrapping_int s w) Z_scalar Z_scalar wraps True False False (fun _ => True))
    with (ge := fun x : Z => x) (ga := fun x : Z => x) (c := c) (n := n) (c' := c') (v := v) as [D K]; auto.
  - intros x y; cbn [fadd wrapping_int]; f_equal; lia.
  - intros x y; cbn [fmul wrapping_int]; f_equal; lia.
  - apply Lw; assert (M := min_max); unfold in_range; cbn; lia.
  - apply Lw; assert (M := min_max); unfold in_range; cbn; lia.
  - intros x e a y f b Hx Hy; apply same_wrap, same_add; eapply wraps_same; eauto.
  - intros _ x e a y f b Hx Hy; apply same_wrap; cbn [fsub Z_scalar].
    unfold Z.sub; apply same_add; [|apply same_opp]; eapply wraps_same; eauto.
  - intros x e a y f b Hx Hy; apply same_wrap, same_mul; eapply wraps_same; eauto.
  - intros _ x e a Hx; apply same_wrap, same_opp; eapply wraps_same; eauto.
  - intros x e a Hx; cbn [fpow ftwo fadd fone wrapping_int Z_scalar]; apply same_wrap.
    unfold ftwo; cbn [fadd fone wrapping_int Z_scalar].
    rewrite (wrap_id (1 + 1)) by (assert (M := min_max); unfold in_range; lia).
    change (1 + 1) with 2; change (Z_pow e 2) with (e ^ 2); rewrite !Z.pow_2_r.
    apply same_mul; eapply wraps_same; eauto.
  - tauto.
  - intros x e a y f b Hx Hy Zx; apply Z.eqb_eq in Zx; cbn [fzero wrapping_int] in Zx; subst x.
    red; cbn [fadd Z_scalar]; red in Hy; subst y; apply same_wrap, same_sym.
    change f with (0 + f) at 2; apply same_add; [|apply same_refl].
    apply same_sym; eapply wraps_same; exact Hx.
  - intros x e a y f b Hx Hy Zx; apply Z.eqb_eq in Zx; cbn [fzero wrapping_int] in Zx; subst y.
    red; cbn [fadd Z_scalar]; red in Hx; subst x; apply same_wrap, same_sym.
    replace e with (e + 0) at 2 by lia; apply same_add; [apply same_refl|].
    apply same_sym; eapply wraps_same; exact Hy.
  - intros _ x e a y f b Hx Hy Zx; apply Z.eqb_eq in Zx; cbn [fzero wrapping_int] in Zx; subst y.
    red; cbn [fsub Z_scalar]; red in Hx; subst x; apply same_wrap, same_sym.
    replace e with (e + - 0) at 2 by lia; unfold Z.sub; apply same_add; [apply same_refl|apply same_opp].
    apply same_sym; eapply wraps_same; exact Hy.
  - intros x e a y f b Hx Hy N; assert (Q : same 0 (e * f)).
    { apply wraps_same in Hx; apply wraps_same in Hy; destruct N as [N|N]; apply Z.eqb_eq in N;
        cbn [fzero wrapping_int] in N; subst.
      - change 0 with (0 * f) at 1; apply same_mul; [exact Hx|apply same_refl].
      - replace 0 with (e * 0) at 1 by lia; apply same_mul; [apply same_refl|exact Hy]. }
    red; cbn [fzero wrapping_int fmul Z_scalar]; rewrite <- (same_wrap _ _ Q); symmetry; apply wrap_id.
    assert (M := min_max); unfold in_range; lia.
  - intros I l m x g h _ O Hx; cbn [fof_usize wrapping_int] in O; destruct (_ <=? _) in O; [|discriminate].
    injection O as <-; red; rewrite sum_exact; cbn [fmul wrapping_int]; apply same_wrap, total_same.
    intros k Hk; eapply wraps_same, Hx; exact Hk.
  - intros I l m x y g g' h h' _ O Hx Hy; cbn [fof_usize wrapping_int] in O; destruct (_ <=? _) in O; [|discriminate].
    injection O as <-; red; rewrite sum_exact; cbn [fmul wrapping_int]; apply same_wrap.
    apply same_trans with (Z.of_nat (length l) * (x * y)).
    + rewrite Z.mul_assoc; apply same_mul; [apply wrap_same|apply same_refl].
    + apply total_same; intros k Hk; apply same_mul; eapply wraps_same; [apply Hx|apply Hy]; exact Hk.
  - tauto.
  - intros i u Eu d ix Bx; apply Lw; exact (Iv i u Eu d ix Bx).
  - rewrite (node_same _ Sm); eapply regular_ctx; [|exact Rg]; intro i; symmetry; apply (ctx_same _ Sm).
  - tauto.
  - clear - Ik Lw; induction n; cbn [constants_all] in *; try tauto; intros d ix Bx; apply Lw, Ik; exact Bx.
  - apply divisors_true.
  - rewrite Ed in D, K; split; [exact D|intros d ix Bx; exact (K d ix Bx)].
Qed.

Lemma wrapping_claim c c' n v ix :
  ctx_wf c -> node_wf n -> integer_ops True False n -> @regular Z Z_scalar (@un_fn Z Z_scalar) c n ->
  inputs_all (in_range s w) c n ->
  @evaluate Z (wrapping_int s w) n c = (c', Ok v) -> in_box (dims (vshape v)) ix ->
  dims (vshape v) = tdims (exact_integer c n) /\ in_range s w (vat 0 v ix) /\
  exists k, vat 0 v ix = tat (exact_integer c n) ix + k * 2 ^ w.
Proof.
  intros Wc W Io Rg Iv H Bx; destruct (wrapping_value c c' n v Wc W Io Rg Iv H) as [D K].
  split; [exact D|]; rewrite (K 0 ix Bx); split; [apply wrap_range|apply wrap_same].
Qed.

Lemma wrapping_fits c c' n v ix :
  ctx_wf c -> node_wf n -> integer_ops True False n -> @regular Z Z_scalar (@un_fn Z Z_scalar) c n ->
  inputs_all (in_range s w) c n ->
  @evaluate Z (wrapping_int s w) n c = (c', Ok v) -> in_box (dims (vshape v)) ix ->
  in_range s w (tat (exact_integer c n) ix) -> vat 0 v ix = tat (exact_integer c n) ix.
Proof.
  intros Wc W Io Rg Iv H Bx R; destruct (wrapping_value c c' n v Wc W Io Rg Iv H) as [D K].
  rewrite (K 0 ix Bx); apply wrap_id; exact R.
Qed.

(** Overflow checks. *)
Definition plain_of (x : option Z) : Z := match x with Some z => z | None => 0 end.
Definition size_of (x : option Z) : Z := Z.abs (plain_of x).

Definition exactly (x : option Z) (e a : Z) : Prop := forall z, x = Some z -> z = e /\ in_range s w z.

Lemma fits_range z : fits s w z = true <-> in_range s w z.
Proof. unfold fits, in_range; rewrite andb_true_iff, !Z.leb_le; tauto. Qed.
Lemma checked_some z y : checked s w z = Some y -> y = z /\ in_range s w z.
Proof. unfold checked; destruct (fits s w z) eqn:Q; [|discriminate]; intro H; injection H as <-; apply fits_range in Q; auto. Qed.
Lemma checked_range z : in_range s w z -> checked s w z = Some z.
Proof. intro H; apply fits_range in H; unfold checked; rewrite H; reflexivity. Qed.
Lemma checked2_some op x y z : checked2 s w op x y = Some z ->
  exists a b, x = Some a /\ y = Some b /\ z = op a b /\ in_range s w z.
Proof.
  destruct x as [a|], y as [b|]; cbn [checked2]; try discriminate; intro H; apply checked_some in H.
  destruct H as [-> H]; exists a, b; auto.
Qed.

Lemma exactly_op2 op x e a y f b r : exactly x e a -> exactly y f b -> exactly (checked2 s w op x y) (op e f) r.
Proof.
  intros Hx Hy z Q; apply checked2_some in Q; destruct Q as (u & v & -> & -> & -> & R).
  destruct (Hx u eq_refl) as [-> _], (Hy v eq_refl) as [-> _]; auto.
Qed.

Lemma zero_some (x : option Z) : @is_zero (option Z) (checked_int s w) x = true -> x = Some 0.
Proof. destruct x as [z|]; [|discriminate]; intro H; apply Z.eqb_eq in H; subst; reflexivity. Qed.

Lemma total_const (I : Type) (l : list I) (g : I -> Z) z :
  (forall k, In k l -> g k = z) -> total l g = Z.of_nat (length l) * z.
Proof.
  induction l as [|k l IH]; intro H; [reflexivity|].
  cbn [total fold_right length]; fold (total l g); rewrite (H k) by (left; reflexivity).
  rewrite IH by (intros j Hj; apply H; right; exact Hj); rewrite Nat2Z.inj_succ; ring.
Qed.

Lemma both_checked c n :
  ctx_wf c -> node_wf n -> inputs_all (in_range s w) c n ->
  ctx_wf (ctx_through Some c) /\ node_wf (node_through Some n) /\
  @den Z Z_scalar (@un_fn Z Z_scalar) (ctx_through plain_of (ctx_through Some c))
    (node_through plain_of (node_through Some n)) = exact_integer c n /\
  @den Z size_int (@un_fn Z size_int) (ctx_through size_of (ctx_through Some c))
    (node_through size_of (node_through Some n)) = size_integer c n.
Proof.
  intros Wc W In'.
  assert (Sm : forall x : Z, plain_of (Some x) = (fun x => x) x) by reflexivity.
  assert (Ss : forall x : Z, size_of (Some x) = Z.abs x) by reflexivity.
  assert (Si : forall x : Z, (fun x => x) x = x) by reflexivity.
  split; [apply vwf_through; exact Wc|]; split; [apply node_wf_through; exact W|]; split.
  - rewrite (node_compose _ _ _ Sm), (node_same _ Si); apply den_ctx; intro i.
    rewrite (ctx_compose _ _ _ Sm); apply (ctx_same _ Si).
  - rewrite (node_compose _ _ _ Ss); apply den_ctx; intro i; apply (ctx_compose _ _ _ Ss).
Qed.

Lemma regular_checked c n : integer_ops True True n -> @regular Z Z_scalar (@un_fn Z Z_scalar) c n ->
  @regular Z Z_scalar (@un_fn Z Z_scalar) (ctx_through plain_of (ctx_through Some c))
    (node_through plain_of (node_through Some n)).
Proof.
  intros Io Rg.
  assert (Sm : forall x : Z, plain_of (Some x) = (fun x => x) x) by reflexivity.
  assert (Si : forall x : Z, (fun x => x) x = x) by reflexivity.
  rewrite (node_compose _ _ _ Sm), (node_same _ Si); eapply regular_ctx; [|exact Rg].
  intro i; rewrite (ctx_compose _ _ _ Sm); symmetry; apply (ctx_same _ Si).
Qed.

Lemma two_checked : @ftwo (option Z) (checked_int s w) = Some 2.
Proof.
  unfold ftwo; cbn [fadd fone checked_int checked2]; apply checked_range.
  assert (M := min_max); unfold in_range; lia.
Qed.

Lemma checked_claim c c' n v ix z :
  ctx_wf c -> node_wf n -> integer_ops True True n -> @regular Z Z_scalar (@un_fn Z Z_scalar) c n ->
  inputs_all (in_range s w) c n ->
  @evaluate (option Z) (checked_int s w) (node_through Some n) (ctx_through Some c) = (c', Ok v) ->
  in_box (dims (vshape v)) ix -> vat None v ix = Some z ->
  z = tat (exact_integer c n) ix /\ in_range s w z.
Proof.
  intros Wc W Io Rg [Iv Ik] H Bx; destruct (both_checked c n Wc W (conj Iv Ik)) as (Wc' & W' & Ed & _).
  assert (Lw : forall x, in_range s w x -> exactly (Some x) (plain_of (Some x)) (plain_of (Some x)))
    by (intros x Hx y Q; injection Q as <-; auto).
  destruct (@value_follow (option Z) Z Z (checked_int s w) Z_scalar Z_scalar exactly True True False (fun _ => True))
    with (ge := plain_of) (ga := plain_of) (c := ctx_through Some c) (n := node_through Some n)
         (c' := c') (v := v) as [D K]; auto.
  - intros [x|] [y|]; cbn; try reflexivity; f_equal; lia.
  - intros [x|] [y|]; cbn; try reflexivity; f_equal; lia.
  - apply (Lw 0); assert (M := min_max); unfold in_range; lia.
  - apply (Lw 1); assert (M := min_max); unfold in_range; lia.
  - intros; eapply exactly_op2; eauto.
  - intros; eapply exactly_op2; eauto.
  - intros; eapply exactly_op2; eauto.
  - intros _ x e a Hx y Q; cbn [fneg checked_int] in Q; destruct x as [u|]; [|discriminate].
    apply checked_some in Q; destruct (Hx u eq_refl) as [-> _]; destruct Q as [-> Q]; auto.
  - intros x e a Hx y Q; rewrite two_checked in Q; cbn [fpow checked_int] in Q; apply checked2_some in Q.
    destruct Q as (u & u' & -> & Q & -> & R); injection Q as <-; destruct (Hx u eq_refl) as [-> _]; auto.
  - intros _ x e a y f b Hx Hy _; cbn [fdiv checked_int]; destruct y as [y|]; [|destruct x; intros ? ?; discriminate].
    destruct y as [|y|y]; [intros ? ?; discriminate| |]; apply (exactly_op2 Z.quot x e a _ f b); auto.
  - intros x e a y f b Hx Hy Zx z' Q; apply zero_some in Zx; destruct (Hx 0 Zx) as [<- _]; exact (Hy z' Q).
  - intros x e a y f b Hx Hy Zx z' Q; apply zero_some in Zx; destruct (Hy 0 Zx) as [<- _].
    cbn [fadd Z_scalar]; rewrite Z.add_0_r; exact (Hx z' Q).
  - intros _ x e a y f b Hx Hy Zx z' Q; apply zero_some in Zx; destruct (Hy 0 Zx) as [<- _].
    cbn [fsub Z_scalar]; rewrite Z.sub_0_r; exact (Hx z' Q).
  - intros x e a y f b Hx Hy N z' Q; cbn [fzero checked_int] in Q; injection Q as <-; cbn [fmul Z_scalar].
    assert (M := min_max); split; [|unfold in_range; lia].
    destruct N as [N|N]; apply zero_some in N; [destruct (Hx 0 N) as [<- _]|destruct (Hy 0 N) as [<- _]]; lia.
  - intros I l m x g h _ O Hx z' Q; cbn [fof_usize checked_int] in O; destruct (_ <=? _) in O; [|discriminate].
    injection O as <-; cbn [fmul checked_int] in Q; apply checked2_some in Q.
    destruct Q as (u & u' & Q & -> & -> & R); injection Q as <-; split; [|exact R].
    rewrite sum_exact; symmetry; apply total_const; intros k Hk; destruct (Hx k Hk u' eq_refl) as [-> _]; reflexivity.
  - intros I l m x y g g' h h' _ O Hx Hy z' Q; cbn [fof_usize checked_int] in O; destruct (_ <=? _) in O; [|discriminate].
    injection O as <-; cbn [fmul checked_int] in Q; apply checked2_some in Q.
    destruct Q as (u & u' & Q & -> & -> & R); apply checked2_some in Q.
    destruct Q as (t & t' & Q & -> & -> & R'); injection Q as <-; split; [|exact R].
    rewrite sum_exact; rewrite (total_const _ _ _ (t' * u')); [ring|].
    intros k Hk; destruct (Hx k Hk t' eq_refl) as [-> _], (Hy k Hk u' eq_refl) as [-> _]; reflexivity.
  - tauto.
  - intros i u; unfold ctx_through; destruct (c i) as [u0|] eqn:Eu; [|discriminate]; intro Q.
    injection Q as <-; apply (entries_through Some (in_range s w) _ 0); [exact (Wc i u0 Eu)|exact Lw|exact (Iv i u0 Eu)].
  - apply integer_through; exact Io.
  - apply regular_checked; auto.
  - tauto.
  - apply (constants_through Some (in_range s w) _ 0); auto.
  - apply divisors_true.
  - rewrite Ed in K; intro Q; exact (K None ix Bx z Q).
Qed.

(** No overflow. *)
Definition small (x : option Z) (e a : Z) : Prop :=
  Z.abs e <= a /\ (s = true \/ 0 <= e) /\ (a <= int_max s w -> x = Some e).

Lemma small_range e a : Z.abs e <= a -> (s = true \/ 0 <= e) -> a <= int_max s w -> in_range s w e.
Proof.
  unfold in_range; assert (M := min_max); intros H [->|K] L; [|lia].
  unfold int_min, int_max in *; lia.
Qed.

Lemma small_made x e a : Z.abs e <= a -> (s = true \/ 0 <= e) ->
  (a <= int_max s w -> in_range s w e -> x = Some e) -> small x e a.
Proof. intros H K L; split; [exact H|split; [exact K|]]; intro Q; apply L; [exact Q|eapply small_range; eauto]. Qed.

Lemma size_mul_bounds a b : 0 <= a -> 0 <= b -> a * b <= size_mul a b /\ a <= size_mul a b /\ b <= size_mul a b.
Proof. unfold size_mul; lia. Qed.

Lemma small_mul x e a y f b : small x e a -> small y f b ->
  small (checked2 s w Z.mul x y) (e * f) (size_mul a b).
Proof.
  intros (H & K & L) (H' & K' & L'); assert (B := size_mul_bounds a b ltac:(lia) ltac:(lia)).
  apply small_made.
  - rewrite Z.abs_mul; nia.
  - destruct K as [K|K]; [auto|]; destruct K' as [K'|K']; [auto|]; right; nia.
  - intros Q R; rewrite L, L' by lia; apply checked_range; exact R.
Qed.

Lemma total_bound (I : Type) (l : list I) (g h : I -> Z) :
  (forall k, In k l -> Z.abs (g k) <= h k) -> Z.abs (total l g) <= total l h /\ 0 <= total l h /\
  forall k, In k l -> h k <= total l h.
Proof.
  induction l as [|j l IH]; intro H; [cbn; split; [lia|split; [lia|tauto]]|].
  destruct IH as (I1 & I2 & I3); [intros k Hk; apply H; right; exact Hk|].
  assert (Hj := H j (or_introl eq_refl)).
  cbn [total fold_right]; fold (total l g) (total l h); split; [lia|split; [lia|]].
  intros k [<-|Hk]; [lia|]; specialize (I3 k Hk); lia.
Qed.

Lemma total_sign (I : Type) (l : list I) (g : I -> Z) :
  (forall k, In k l -> s = true \/ 0 <= g k) -> s = true \/ 0 <= total l g.
Proof.
  intro H; destruct (bool_dec s true) as [Q|Q]; [auto|right].
  induction l as [|k l IH]; [cbn; lia|]; cbn [total fold_right]; fold (total l g).
  destruct (H k (or_introl eq_refl)) as [K|K]; [contradiction|].
  assert (0 <= total l g) by (apply IH; intros j Hj; apply H; right; exact Hj); lia.
Qed.

Lemma quot_small e f : Z.abs (Z.quot e f) <= Z.abs e.
Proof.
  destruct (Z.eq_dec f 0) as [->|N]; [destruct e; cbn; lia|].
  rewrite <- Z.quot_abs by exact N.
  apply Z.le_trans with (Z.quot (Z.abs e) 1); [apply Z.quot_le_compat_l; lia|rewrite Z.quot_1_r; lia].
Qed.

Lemma divisors_plain P c n : @divisors_all Z Z_scalar P c n ->
  @divisors_all Z Z_scalar P (ctx_through plain_of (ctx_through Some c)) (node_through plain_of (node_through Some n)).
Proof.
  intro H.
  assert (Sm : forall x : Z, plain_of (Some x) = (fun x => x) x) by reflexivity.
  assert (Si : forall x : Z, (fun x => x) x = x) by reflexivity.
  rewrite (node_compose _ _ _ Sm), (node_same _ Si); eapply divisors_ctx; [|exact H].
  intro i; rewrite (ctx_compose _ _ _ Sm); symmetry; apply (ctx_same _ Si).
Qed.

Lemma more_ops n : integer_ops True False n -> @integer_ops Z True True n.
Proof. induction n; cbn [integer_ops]; try tauto; destruct u; tauto. Qed.

Lemma fits_value c c' n v ix :
  ctx_wf c -> node_wf n -> integer_ops (s = true) True n -> @regular Z Z_scalar (@un_fn Z Z_scalar) c n ->
  (forall i u, c i = Some u -> inhabited u) -> constants_inhabited n -> @divisors_all Z Z_scalar (fun z => z <> 0) c n ->
  inputs_all (in_range s w) c n ->
  @evaluate (option Z) (checked_int s w) (node_through Some n) (ctx_through Some c) = (c', Ok v) ->
  dims (vshape v) = tdims (exact_integer c n) /\
  (in_box (dims (vshape v)) ix -> tat (size_integer c n) ix <= int_max s w ->
   vat None v ix = Some (tat (exact_integer c n) ix)).
Proof.
  intros Wc W Io Rg Hc Hn Dv [Iv Ik] H; destruct (both_checked c n Wc W (conj Iv Ik)) as (Wc' & W' & Ed & Sd).
  assert (M := min_max).
  assert (Lw : forall x, in_range s w x -> small (Some x) (plain_of (Some x)) (size_of (Some x))).
  { intros x Hx; split; [unfold size_of, plain_of; lia|split; [|auto]].
    unfold in_range, int_min in Hx; unfold plain_of; destruct s; [auto|right; lia]. }
  assert (IoT : integer_ops True True n).
  { clear - Io; induction n; cbn [integer_ops] in *; try tauto; destruct u; tauto. }
  destruct (@value_follow (option Z) Z Z (checked_int s w) Z_scalar size_int small (s = true) True True (fun z => z <> 0))
    with (ge := plain_of) (ga := size_of) (c := ctx_through Some c) (n := node_through Some n)
         (c' := c') (v := v) as [D K]; auto.
  - intros [x|] [y|]; cbn; try reflexivity; f_equal; lia.
  - intros [x|] [y|]; cbn; try reflexivity; f_equal; lia.
  - apply (Lw 0); unfold in_range; lia.
  - apply (Lw 1); unfold in_range; lia.
  - intros x e a y f b (Hx & Kx & Lx) (Hy & Ky & Ly); cbn [fadd Z_scalar size_int checked_int].
    apply small_made; [lia|destruct Kx, Ky; auto; right; lia|].
    intros Q R; rewrite Lx, Ly by lia; apply checked_range; exact R.
  - intros Sg x e a y f b (Hx & Kx & Lx) (Hy & Ky & Ly); cbn [fsub Z_scalar size_int checked_int].
    apply small_made; [lia|auto|].
    intros Q R; rewrite Lx, Ly by lia; apply checked_range; exact R.
  - intros; apply small_mul; auto.
  - intros Sg x e a (Hx & Kx & Lx); cbn [fneg Z_scalar size_int checked_int].
    apply small_made; [lia|auto|]; intros Q R; rewrite Lx by lia; apply checked_range; exact R.
  - intros x e a Hx; rewrite two_checked; cbn [fpow checked_int Z_scalar size_int].
    assert (Q := small_mul _ _ _ _ _ _ Hx Hx).
    change (Z_pow e (@ftwo Z Z_scalar)) with (e ^ 2); rewrite Z.pow_2_r.
    destruct x as [u|]; cbn [checked2] in *; [rewrite Z.pow_2_r|]; exact Q.
  - intros _ x e a y f b (Hx & Kx & Lx) (Hy & Ky & Ly) Nz; cbn [fdiv Z_scalar size_int checked_int].
    apply small_made.
    + assert (Qa := quot_small e f); lia.
    + destruct Kx as [Kx|Kx]; [auto|]; destruct Ky as [Ky|Ky]; [auto|right]; apply Z.quot_pos; lia.
    + intros Q R; rewrite Lx, Ly by lia; destruct f; [contradiction| |]; apply checked_range; exact R.
  - intros x e a y f b (Hx & Kx & Lx) (Hy & Ky & Ly) Zx; cbn [fadd Z_scalar size_int]; apply zero_some in Zx.
    apply small_made; [lia|destruct Kx, Ky; auto; right; lia|].
    intros Q R; rewrite Lx in Zx by lia; injection Zx as ->; rewrite Ly by lia; f_equal; lia.
  - intros x e a y f b (Hx & Kx & Lx) (Hy & Ky & Ly) Zx; cbn [fadd Z_scalar size_int]; apply zero_some in Zx.
    apply small_made; [lia|destruct Kx, Ky; auto; right; lia|].
    intros Q R; rewrite Ly in Zx by lia; injection Zx as ->; rewrite Lx by lia; f_equal; lia.
  - intros Sg x e a y f b (Hx & Kx & Lx) (Hy & Ky & Ly) Zx; cbn [fsub Z_scalar size_int]; apply zero_some in Zx.
    apply small_made; [lia|auto|].
    intros Q R; rewrite Ly in Zx by lia; injection Zx as ->; rewrite Lx by lia; f_equal; lia.
  - intros x e a y f b Hx Hy N; assert (Q := small_mul _ _ _ _ _ _ Hx Hy); destruct Q as (Q1 & Q2 & Q3).
    apply small_made; [exact Q1|exact Q2|]; intros Q R; cbn [fzero checked_int fmul Z_scalar size_int] in *.
    destruct Hx as (Hx & Kx & Lx), Hy as (Hy & Ky & Ly).
    assert (B := size_mul_bounds a b ltac:(lia) ltac:(lia)).
    destruct N as [N|N]; apply zero_some in N; [rewrite Lx in N by lia|rewrite Ly in N by lia];
      injection N as ->; rewrite ?Z.mul_0_r; reflexivity.
  - intros I l m x g h Ne O Hx; cbn [fof_usize checked_int] in O; destruct (_ <=? _) in O; [|discriminate].
    injection O as <-; rewrite sum_exact, sum_size; cbn [fmul checked_int].
    destruct (total_bound I l g h) as (B1 & B2 & B3); [intros k Hk; apply (Hx k Hk)|].
    apply small_made; [exact B1|apply total_sign; intros k Hk; apply (Hx k Hk)|].
    intros Q R; assert (X : forall k, In k l -> x = Some (g k)).
    { intros k Hk; apply (Hx k Hk); specialize (B3 k Hk); lia. }
    destruct l as [|j l]; [destruct (Ne Logic.I eq_refl)|].
    assert (Xj := X j (or_introl eq_refl)); rewrite Xj; cbn [checked2].
    assert (T : total (j :: l) g = Z.of_nat (length (j :: l)) * g j).
    { apply total_const; intros k Hk; specialize (X k Hk); rewrite Xj in X; congruence. }
    rewrite <- T; apply checked_range; exact R.
  - intros I l m x y g g' h h' Ne O Hx Hy; cbn [fof_usize checked_int] in O; destruct (_ <=? _) in O; [|discriminate].
    injection O as <-; rewrite sum_exact, sum_size; cbn [fmul checked_int Z_scalar size_int].
    assert (P : forall k, In k l -> small (checked2 s w Z.mul x y) (g k * g' k) (size_mul (h k) (h' k))).
    { intros k Hk; apply small_mul; [apply Hx|apply Hy]; exact Hk. }
    destruct (total_bound I l (fun k => g k * g' k) (fun k => size_mul (h k) (h' k))) as (B1 & B2 & B3);
      [intros k Hk; apply (P k Hk)|].
    destruct (total_bound I l g (fun k => size_mul (h k) (h' k))) as (C1 & C2 & _).
    { intros k Hk; destruct (Hx k Hk) as (Ha & _ & _), (Hy k Hk) as (Hb & _ & _).
      assert (B := size_mul_bounds (h k) (h' k) ltac:(lia) ltac:(lia)); lia. }
    apply small_made; [exact B1|apply total_sign; intros k Hk; apply (P k Hk)|].
    intros Q R; assert (X : forall k, In k l -> x = Some (g k) /\ y = Some (g' k)).
    { intros k Hk; specialize (B3 k Hk); cbn beta in B3.
      destruct (Hx k Hk) as (Ha & _ & La), (Hy k Hk) as (Hb & _ & Lb).
      assert (B := size_mul_bounds (h k) (h' k) ltac:(lia) ltac:(lia)); split; [apply La|apply Lb]; lia. }
    destruct l as [|j l]; [destruct (Ne Logic.I eq_refl)|].
    destruct (X j (or_introl eq_refl)) as [Xj Yj]; rewrite Xj, Yj; cbn [checked2].
    assert (T : total (j :: l) g = Z.of_nat (length (j :: l)) * g j).
    { apply total_const; intros k Hk; destruct (X k Hk) as [X' _]; rewrite Xj in X'; congruence. }
    rewrite <- T; rewrite checked_range.
    2:{ eapply small_range; [exact C1|apply total_sign; intros k Hk; apply (Hx k Hk)|exact Q]. }
    cbn [checked2]; rewrite T.
    assert (T2 : total (j :: l) (fun k => g k * g' k) = Z.of_nat (length (j :: l)) * (g j * g' j)).
    { apply total_const; intros k Hk; destruct (X k Hk) as [X1 X2]; rewrite Xj in X1; rewrite Yj in X2.
      injection X1 as ->; injection X2 as ->; reflexivity. }
    rewrite <- Z.mul_assoc, <- T2; apply checked_range; exact R.
  - intros _ i u; unfold ctx_through; destruct (c i) as [u0|] eqn:Eu; [|discriminate]; intro Q.
    injection Q as <-; apply inhabited_through; exact (Hc i u0 Eu).
  - intros i u; unfold ctx_through; destruct (c i) as [u0|] eqn:Eu; [|discriminate]; intro Q.
    injection Q as <-; apply (entries_through Some (in_range s w) _ 0); [exact (Wc i u0 Eu)|exact Lw|exact (Iv i u0 Eu)].
  - apply integer_through; exact Io.
  - apply regular_checked; auto.
  - intros _; apply constants_inhabited_through; exact Hn.
  - apply (constants_through Some (in_range s w) _ 0); auto.
  - apply divisors_plain; exact Dv.
  - rewrite Ed in D; rewrite Ed, Sd in K; split; [exact D|]; intro Bx; destruct (K None ix Bx) as (_ & _ & L); exact L.
Qed.

Lemma fits_claim c c' n v ix :
  ctx_wf c -> node_wf n -> integer_ops (s = true) True n -> @regular Z Z_scalar (@un_fn Z Z_scalar) c n ->
  (forall i u, c i = Some u -> inhabited u) -> constants_inhabited n -> @divisors_all Z Z_scalar (fun z => z <> 0) c n ->
  inputs_all (in_range s w) c n ->
  @evaluate (option Z) (checked_int s w) (node_through Some n) (ctx_through Some c) = (c', Ok v) ->
  in_box (dims (vshape v)) ix -> tat (size_integer c n) ix <= int_max s w ->
  vat None v ix = Some (tat (exact_integer c n) ix).
Proof. intros; eapply fits_value; eauto. Qed.

Lemma operands_closed (P : node Z -> Prop) :
  (forall u m, P (Un u m) -> P m) -> (forall m, P (Sum m) -> P m) -> (forall m k, P (Cached m k) -> P m) ->
  (forall l r, P (Power l r) -> P l /\ P r) -> (forall l r, P (Add l r) -> P l /\ P r) ->
  (forall l r, P (Sub l r) -> P l /\ P r) -> (forall l r, P (Mul l r) -> P l /\ P r) ->
  (forall l r, P (Div l r) -> P l /\ P r) -> (forall a l r, P (Contract a l r) -> P l /\ P r) ->
  forall n m, P n -> In m (operands n) -> P m.
Proof.
  intros Hu Hs Hc Hp Ha Hb Hm Hd Ht n m; induction n; intros Pn; cbn [operands]; intros [<-|I]; try exact Pn;
    try (destruct I; fail); try (apply in_app_or in I; destruct I as [I|I]; [apply IHn1|apply IHn2]; auto;
      first [apply Hp in Pn|apply Ha in Pn|apply Hb in Pn|apply Hm in Pn|apply Hd in Pn|apply Ht in Pn]; tauto).
  - apply IHn; eauto.
  - apply IHn; eauto.
  - apply IHn; eauto.
Qed.

Lemma nothing_claim c n :
  ctx_wf c -> node_wf n -> integer_ops (s = true) True n -> @regular Z Z_scalar (@un_fn Z Z_scalar) c n ->
  (forall i u, c i = Some u -> inhabited u) -> constants_inhabited n ->
  @divisors_all Z Z_scalar (fun z => z <> 0) c n -> inputs_all (in_range s w) c n ->
  (forall m ix, In m (operands n) -> in_box (tdims (exact_integer c m)) ix ->
     tat (size_integer c m) ix <= int_max s w) ->
  forall m c' v ix, In m (operands n) ->
  @evaluate (option Z) (checked_int s w) (node_through Some m) (ctx_through Some c) = (c', Ok v) ->
  in_box (dims (vshape v)) ix -> vat None v ix = Some (tat (exact_integer c m) ix).
Proof.
  intros Wc W Io Rg Hc Hn Dv [Iv Ik] B m c' v ix I H Bx.
  assert (G : node_wf m /\ integer_ops (s = true) True m /\ @regular Z Z_scalar (@un_fn Z Z_scalar) c m /\
    constants_inhabited m /\ @divisors_all Z Z_scalar (fun z => z <> 0) c m /\ constants_all (in_range s w) m).
  { revert I; apply (operands_closed (fun m => node_wf m /\ integer_ops (s = true) True m /\
      @regular Z Z_scalar (@un_fn Z Z_scalar) c m /\ constants_inhabited m /\
      @divisors_all Z Z_scalar (fun z => z <> 0) c m /\ constants_all (in_range s w) m));
      cbn [node_wf integer_ops regular constants_inhabited divisors_all constants_all]; try tauto.
    - intros u k; destruct u; tauto.
    - intros a l r; destruct a; tauto. }
  destruct G as (W' & Io' & Rg' & Hn' & Dv' & Ik').
  eapply (fits_claim c c' m); eauto; [split; auto|].
  apply B; [exact I|].
  destruct (fits_value c c' m v ix Wc W' Io' Rg' Hc Hn' Dv' (conj Iv Ik') H) as [<- _]; exact Bx.
Qed.

(** Release builds with divisions: the same computation without short cuts, all operations checked. *)
Definition survives (x : Z) (e : option Z) (a : Z) : Prop := forall z, e = Some z -> x = z /\ a = z /\ in_range s w z.

Lemma survives_op2 op x e a y f b r q : survives x e a -> survives y f b ->
  (r = wrap s w (op x y)) -> q = op a b -> survives r (checked2 s w op e f) q.
Proof.
  intros Hx Hy -> -> z Q; apply checked2_some in Q; destruct Q as (u & v & -> & -> & -> & R).
  destruct (Hx u eq_refl) as (-> & -> & _), (Hy v eq_refl) as (-> & -> & _); split; [apply wrap_id; exact R|auto].
Qed.

Lemma sum_checked (I : Type) (l : list I) (g : I -> option Z) z :
  @sum_over (option Z) (checked_int s w) I l g = Some z ->
  (forall k, In k l -> g k <> None) /\ z = total l (fun k => plain_of (g k)) /\ in_range s w z.
Proof.
  assert (M := min_max).
  enough (G : forall l acc, fold_left (fun a k => @fadd _ (checked_int s w) a (g k)) l acc = Some z ->
    (forall u, acc = Some u -> in_range s w u) ->
    exists u, acc = Some u /\ (forall k, In k l -> g k <> None) /\ z = u + total l (fun k => plain_of (g k)) /\ in_range s w z).
  { intro Q; destruct (G l (Some 0) Q) as (u & E & A & B & C);
      [intros u E; injection E as <-; unfold in_range; lia|injection E as <-; auto]. }
  clear l; induction l as [|k l IH]; intros acc Q Ra; cbn [fold_left] in Q.
  - exists z; split; [exact Q|split; [intros ? []|split; [cbn; lia|auto]]].
  - apply IH in Q; [|intros u E; apply checked2_some in E as (? & ? & _ & _ & _ & R); exact R].
    destruct Q as (u & E & A & B & C); apply checked2_some in E; destruct E as (a & b & -> & Eb & -> & R).
    exists a; split; [reflexivity|split; [|split; [|exact C]]].
    + intros j [<-|Hj]; [congruence|auto].
    + cbn [total fold_right]; fold (total l (fun k => plain_of (g k))); rewrite Eb; cbn [plain_of]; lia.
Qed.

Lemma release_claim c c' n v ix z :
  ctx_wf c -> node_wf n -> integer_ops True True n -> @regular Z Z_scalar (@un_fn Z Z_scalar) c n ->
  inputs_all (in_range s w) c n ->
  @evaluate Z (wrapping_int s w) n c = (c', Ok v) -> in_box (dims (vshape v)) ix ->
  tat (checked_integer s w c n) ix = Some z -> vat 0 v ix = z /\ tat (exact_integer c n) ix = z.
Proof.
  intros Wc W Io Rg [Iv Ik] H Bx.
  assert (M := min_max).
  assert (Sm : forall x : Z, (fun x => x) x = x) by reflexivity.
  assert (Ed : @den Z Z_scalar (@un_fn Z Z_scalar) (ctx_through (fun x => x) c) (node_through (fun x => x) n)
               = exact_integer c n).
  { rewrite (node_same _ Sm); apply den_ctx; apply (ctx_same _ Sm). }
  assert (Lw : forall x, in_range s w x -> survives x (Some x) x).
  { intros x Hx y Q; injection Q as <-; auto. }
  assert (Z0 : forall x : Z, @is_zero Z (wrapping_int s w) x = true -> x = 0).
  { intros x Q; apply Z.eqb_eq in Q; exact Q. }
  destruct (@value_follow Z (option Z) Z (wrapping_int s w) (checked_int s w) Z_scalar survives True True False (fun _ => True))
    with (ge := @Some Z) (ga := fun x : Z => x) (c := c) (n := n) (c' := c') (v := v) as [D K]; auto.
  - intros x y; cbn [fadd wrapping_int]; f_equal; lia.
  - intros x y; cbn [fmul wrapping_int]; f_equal; lia.
  - apply Lw; unfold in_range; cbn; lia.
  - apply Lw; unfold in_range; cbn; lia.
  - intros; eapply survives_op2; eauto.
  - intros; eapply survives_op2; eauto.
  - intros; eapply survives_op2; eauto.
  - intros _ x e a Hx y Q; cbn [fneg checked_int] in Q; destruct e as [u|]; [|discriminate].
    apply checked_some in Q; destruct (Hx u eq_refl) as (-> & -> & _); destruct Q as [-> Q].
    split; [apply wrap_id; exact Q|auto].
  - intros x e a Hx y Q; rewrite two_checked in Q; cbn [fpow checked_int] in Q; apply checked2_some in Q.
    destruct Q as (u & u' & -> & Q & -> & R); injection Q as <-; destruct (Hx u eq_refl) as (-> & -> & _).
    cbn [fpow wrapping_int Z_scalar]; unfold ftwo; cbn [fadd fone wrapping_int Z_scalar].
    rewrite (wrap_id (1 + 1)) by (unfold in_range; lia); change (1 + 1) with 2.
    split; [apply wrap_id; exact R|split; [reflexivity|exact R]].
  - intros _ x e a y f b Hx Hy _; cbn [fdiv checked_int].
    destruct f as [f|]; [|destruct e; intros ? ?; discriminate].
    destruct f as [|f|f]; [intros ? ?; discriminate| |]; eapply survives_op2; eauto.
  - intros x e a y f b Hx Hy Zx z' Q; apply Z0 in Zx; cbn [fadd checked_int] in Q; apply checked2_some in Q.
    destruct Q as (u & u' & -> & -> & -> & R); destruct (Hx u eq_refl) as (<- & -> & _), (Hy u' eq_refl) as (-> & -> & _).
    subst x; cbn [fadd Z_scalar]; auto.
  - intros x e a y f b Hx Hy Zx z' Q; apply Z0 in Zx; cbn [fadd checked_int] in Q; apply checked2_some in Q.
    destruct Q as (u & u' & -> & -> & -> & R); destruct (Hx u eq_refl) as (-> & -> & _), (Hy u' eq_refl) as (<- & -> & _).
    subst y; cbn [fadd Z_scalar]; rewrite Z.add_0_r in *; auto.
  - intros _ x e a y f b Hx Hy Zx z' Q; apply Z0 in Zx; cbn [fsub checked_int] in Q; apply checked2_some in Q.
    destruct Q as (u & u' & -> & -> & -> & R); destruct (Hx u eq_refl) as (-> & -> & _), (Hy u' eq_refl) as (<- & -> & _).
    subst y; cbn [fsub Z_scalar]; rewrite Z.sub_0_r in *; auto.
  - intros x e a y f b Hx Hy N z' Q; cbn [fmul checked_int] in Q; apply checked2_some in Q.
    destruct Q as (u & u' & -> & -> & -> & R); destruct (Hx u eq_refl) as (-> & -> & _), (Hy u' eq_refl) as (-> & -> & _).
    cbn [fzero wrapping_int fmul Z_scalar]; destruct N as [N|N]; apply Z0 in N; subst; rewrite ?Z.mul_0_r in *; auto.
  - intros I l m x g h _ O Hx z' Q; cbn [fof_usize wrapping_int] in O; destruct (_ <=? _) in O; [|discriminate].
    injection O as <-; apply sum_checked in Q; destruct Q as (A & -> & R).
    assert (X : forall k, In k l -> h k = plain_of (g k) /\ x = plain_of (g k)).
    { intros k Hk; specialize (A k Hk); destruct (g k) as [u|] eqn:G; [|congruence].
      destruct (Hx k Hk u G) as (-> & -> & _); auto. }
    rewrite sum_exact; cbn [fmul wrapping_int].
    assert (Eh : total l h = total l (fun k => plain_of (g k))).
    { clear - X; induction l as [|k l IH]; [reflexivity|]; cbn [total fold_right]; fold (total l h) (total l (fun k => plain_of (g k))).
      rewrite (proj1 (X k (or_introl eq_refl))), IH; [reflexivity|intros j Hj; apply X; right; exact Hj]. }
    split; [|auto]. rewrite <- (wrap_id _ R); apply same_wrap, total_same.
    intros k Hk; rewrite (proj2 (X k Hk)); apply same_refl.
  - intros I l m x y g g' h h' _ O Hx Hy z' Q; cbn [fof_usize wrapping_int] in O; destruct (_ <=? _) in O; [|discriminate].
    injection O as <-; apply sum_checked in Q; destruct Q as (A & -> & R).
    set (p := fun k => plain_of (@fmul _ (checked_int s w) (g k) (g' k))) in *.
    assert (X : forall k, In k l -> h k * h' k = p k /\ x * y = p k).
    { intros k Hk; specialize (A k Hk); unfold p; destruct (@fmul _ (checked_int s w) (g k) (g' k)) as [t|] eqn:G; [|congruence].
      cbn [fmul checked_int] in G; apply checked2_some in G; destruct G as (u & u' & G & G' & -> & _).
      destruct (Hx k Hk u G) as (-> & -> & _), (Hy k Hk u' G') as (-> & -> & _); auto. }
    rewrite sum_exact; cbn [fmul wrapping_int Z_scalar].
    assert (Eh : total l (fun k => h k * h' k) = total l p).
    { clear - X; induction l as [|k l IH]; [reflexivity|]; cbn [total fold_right]; fold (total l (fun k => h k * h' k)) (total l p).
      rewrite (proj1 (X k (or_introl eq_refl))), IH; [reflexivity|intros j Hj; apply X; right; exact Hj]. }
    split; [|auto]. rewrite <- (wrap_id _ R); apply same_wrap.
    apply same_trans with (Z.of_nat (length l) * (x * y)).
    + rewrite Z.mul_assoc; apply same_mul; [apply wrap_same|apply same_refl].
    + apply total_same; intros k Hk; rewrite (proj2 (X k Hk)); apply same_refl.
  - tauto.
  - intros i u Eu d ix' Bx'; apply Lw; exact (Iv i u Eu d ix' Bx').
  - exact (proj2 (@integer_regular Z (option Z) Z_scalar (checked_int s w) _ _ Some True True c n Io) Rg).
  - tauto.
  - clear - Ik Lw; induction n; cbn [constants_all] in *; try tauto; intros d ix' Bx'; apply Lw, Ik; exact Bx'.
  - apply divisors_true.
  - rewrite Ed in K; intro Q; destruct (K 0 ix Bx z Q) as (-> & -> & _); auto.
Qed.

Lemma builds_agree c c1 c2 n v1 v2 ix z :
  ctx_wf c -> node_wf n -> integer_ops True False n -> @regular Z Z_scalar (@un_fn Z Z_scalar) c n ->
  inputs_all (in_range s w) c n ->
  @evaluate (option Z) (checked_int s w) (node_through Some n) (ctx_through Some c) = (c1, Ok v1) ->
  @evaluate Z (wrapping_int s w) n c = (c2, Ok v2) ->
  in_box (dims (vshape v1)) ix -> in_box (dims (vshape v2)) ix -> vat None v1 ix = Some z ->
  vat 0 v2 ix = z.
Proof.
  intros Wc W Io Rg In' H1 H2 B1 B2 Q.
  destruct (checked_claim c c1 n v1 ix z Wc W (more_ops _ Io) Rg In' H1 B1 Q) as [-> R].
  exact (wrapping_fits c c2 n v2 ix Wc W Io Rg In' H2 B2 R).
Qed.

End Width.
