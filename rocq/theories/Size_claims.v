(** The size of derivatives. *)
From Coq Require Import List Arith Lia.
Import ListNotations.
From Verif Require Import Base Scalar Buffers Spec Node Vocab.

Lemma height_pos F (n : node F) : 1 <= height n.
Proof. destruct n; cbn; lia. Qed.

Lemma height_nodes F (n : node F) : height n <= nodes n.
Proof. induction n; cbn; lia. Qed.

Lemma nodes_pos F (n : node F) : 1 <= nodes n.
Proof. destruct n; cbn; lia. Qed.

(** Unary operators copy their operand at most twice. *)
Lemma un_adjoint_nodes F u (m m' n' : node F) : un_adjoint u m m' = Some n' ->
  nodes n' <= nodes m' + 2 * nodes m + 4.
Proof. destruct u; cbn [un_adjoint]; intro E; inversion E; subst; cbn [nodes]; lia. Qed.

Lemma un_adjoint_height F u (m m' n' : node F) : un_adjoint u m m' = Some n' ->
  height n' <= Nat.max (height m' + 2) (height m + 3).
Proof. destruct u; cbn [un_adjoint]; intro E; inversion E; subst; cbn [height]; lia. Qed.

Ltac both t H := match type of H with
  | obind (adjoint ?l t) (fun _ => obind (adjoint ?r t) _) = _ =>
      destruct (adjoint l t) as [l'|] eqn:El; cbn [obind] in H; [|discriminate];
      destruct (adjoint r t) as [r'|] eqn:Er; cbn [obind] in H; [|discriminate];
      injection H as <-
  end.

Lemma adjoint_nodes F t (n n' : node F) : adjoint n t = Some n' -> nodes n' <= 4 * (nodes n * height n).
Proof.
  revert n'; induction n; intros n' H; cbn [adjoint] in H; cbn [nodes height].
  - injection H as <-; cbn; lia.
  - injection H as <-; cbn; lia.
  - injection H as <-; cbn; lia.
  - discriminate.
  - discriminate.
  - destruct (ident_eqb k t); [|discriminate]; specialize (IHn _ H); nia.
  - destruct (adjoint n t) as [m'|]; cbn [obind] in H; [|discriminate].
    specialize (IHn _ eq_refl); apply un_adjoint_nodes in H; assert (P := nodes_pos _ n); nia.
  - specialize (IHn _ H); nia.
  - both t H; specialize (IHn1 _ eq_refl); specialize (IHn2 _ eq_refl); cbn [nodes].
    assert (P1 := nodes_pos _ n1); assert (P2 := nodes_pos _ n2).
    assert (Q1 := Nat.le_max_l (height n1) (height n2)); assert (Q2 := Nat.le_max_r (height n1) (height n2)).
    set (h := Nat.max _ _) in *; nia.
  - both t H; specialize (IHn1 _ eq_refl); specialize (IHn2 _ eq_refl); cbn [nodes].
    assert (P1 := nodes_pos _ n1); assert (P2 := nodes_pos _ n2).
    assert (Q1 := Nat.le_max_l (height n1) (height n2)); assert (Q2 := Nat.le_max_r (height n1) (height n2)).
    set (h := Nat.max _ _) in *; nia.
  - both t H; specialize (IHn1 _ eq_refl); specialize (IHn2 _ eq_refl); cbn [nodes].
    assert (P1 := nodes_pos _ n1); assert (P2 := nodes_pos _ n2).
    assert (Q1 := Nat.le_max_l (height n1) (height n2)); assert (Q2 := Nat.le_max_r (height n1) (height n2)).
    set (h := Nat.max _ _) in *; nia.
  - both t H; specialize (IHn1 _ eq_refl); specialize (IHn2 _ eq_refl); cbn [nodes].
    assert (P1 := nodes_pos _ n1); assert (P2 := nodes_pos _ n2).
    assert (Q1 := Nat.le_max_l (height n1) (height n2)); assert (Q2 := Nat.le_max_r (height n1) (height n2)).
    set (h := Nat.max _ _) in *; nia.
  - both t H; specialize (IHn1 _ eq_refl); specialize (IHn2 _ eq_refl); cbn [nodes].
    assert (P1 := nodes_pos _ n1); assert (P2 := nodes_pos _ n2).
    assert (Q1 := Nat.le_max_l (height n1) (height n2)); assert (Q2 := Nat.le_max_r (height n1) (height n2)).
    set (h := Nat.max _ _) in *; nia.
  - both t H; specialize (IHn1 _ eq_refl); specialize (IHn2 _ eq_refl); cbn [nodes].
    assert (P1 := nodes_pos _ n1); assert (P2 := nodes_pos _ n2).
    assert (Q1 := Nat.le_max_l (height n1) (height n2)); assert (Q2 := Nat.le_max_r (height n1) (height n2)).
    set (h := Nat.max _ _) in *; nia.
Qed.

Lemma adjoint_height F t (n n' : node F) : adjoint n t = Some n' -> height n' + 1 <= 3 * height n.
Proof.
  revert n'; induction n; intros n' H; cbn [adjoint] in H; cbn [height].
  - injection H as <-; cbn; lia.
  - injection H as <-; cbn; lia.
  - injection H as <-; cbn; lia.
  - discriminate.
  - discriminate.
  - destruct (ident_eqb k t); [|discriminate]; specialize (IHn _ H); lia.
  - destruct (adjoint n t) as [m'|]; cbn [obind] in H; [|discriminate].
    specialize (IHn _ eq_refl); apply un_adjoint_height in H; assert (P := height_pos _ n); lia.
  - specialize (IHn _ H); lia.
  - both t H; specialize (IHn1 _ eq_refl); specialize (IHn2 _ eq_refl); cbn [height];
      assert (P1 := height_pos _ n1); assert (P2 := height_pos _ n2); lia.
  - both t H; specialize (IHn1 _ eq_refl); specialize (IHn2 _ eq_refl); cbn [height];
      assert (P1 := height_pos _ n1); assert (P2 := height_pos _ n2); lia.
  - both t H; specialize (IHn1 _ eq_refl); specialize (IHn2 _ eq_refl); cbn [height];
      assert (P1 := height_pos _ n1); assert (P2 := height_pos _ n2); lia.
  - both t H; specialize (IHn1 _ eq_refl); specialize (IHn2 _ eq_refl); cbn [height];
      assert (P1 := height_pos _ n1); assert (P2 := height_pos _ n2); lia.
  - both t H; specialize (IHn1 _ eq_refl); specialize (IHn2 _ eq_refl); cbn [height];
      assert (P1 := height_pos _ n1); assert (P2 := height_pos _ n2); lia.
  - both t H; specialize (IHn1 _ eq_refl); specialize (IHn2 _ eq_refl); cbn [height];
      assert (P1 := height_pos _ n1); assert (P2 := height_pos _ n2); lia.
Qed.

Lemma adjoint_square F t (n n' : node F) : adjoint n t = Some n' -> nodes n' <= 4 * (nodes n * nodes n).
Proof. intro H; apply adjoint_nodes in H; assert (K := height_nodes _ n); nia. Qed.

Lemma twice_nodes F t u (n n' n'' : node F) : adjoint n t = Some n' -> adjoint n' u = Some n'' ->
  nodes n'' <= 48 * (nodes n * height n * height n).
Proof.
  intros H H'; apply adjoint_nodes in H'; assert (K := adjoint_height _ _ _ _ H); apply adjoint_nodes in H.
  apply Nat.le_trans with (1 := H'); apply Nat.le_trans with (4 * (4 * (nodes n * height n) * (3 * height n))); [|nia].
  apply Nat.mul_le_mono_l, Nat.mul_le_mono; lia.
Qed.

Lemma chain_nodes F x k : @nodes F (product_chain x k) = 2 * k + 1.
Proof. induction k; cbn [product_chain nodes]; lia. Qed.

Lemma chain_adjoint F x t k : exists n', @adjoint F (product_chain x k) t = Some n' /\
  nodes n' = k * k + 5 * k + 1.
Proof.
  induction k as [|k (n' & E & K)].
  - eexists; split; reflexivity.
  - cbn [product_chain adjoint]; rewrite E; cbn [obind]; eexists; split; [reflexivity|].
    cbn [nodes]; rewrite K, chain_nodes; lia.
Qed.

Lemma chain_twice F x t u k : exists n' n'', @adjoint F (product_chain x k) t = Some n' /\
  adjoint n' u = Some n'' /\ 2 * (k * k * k) <= 3 * nodes n''.
Proof.
  assert (G : exists n' n'', @adjoint F (product_chain x k) t = Some n' /\
    adjoint n' u = Some n'' /\ nodes n' = k * k + 5 * k + 1 /\ 2 * (k * k * k) <= 3 * nodes n'').
  { induction k as [|k (n' & n'' & E & E' & K & K')].
    - do 2 eexists; split; [reflexivity|]; split; [reflexivity|]; cbn; lia.
    - destruct (chain_adjoint F x u k) as (m' & Em & Km).
      cbn [product_chain adjoint]; rewrite E; cbn [obind]; do 2 eexists; split; [reflexivity|].
      cbn [adjoint]; rewrite E', Em; cbn [obind]; split; [reflexivity|].
      cbn [nodes]; rewrite K, Km, chain_nodes; split; [lia|nia]. }
  destruct G as (n' & n'' & E & E' & _ & K); eauto 6.
Qed.
