(** Facts about specs: every well-formed spec denotes a pointwise function. *)
From Coq Require Import List Arith Bool Lia.
Import ListNotations.
From Verif Require Import Base Shapes Scalar Buffers Spec Vocab Index_facts Buffers_facts.

Section SpecFacts.
Context {F : Type} {S : Scalar F}.

(** Entries of the tensor a spec stands for. *)
Definition sfun (s : spec F) (ix : list nat) : F :=
  match s with
  | Raw v => vat fzero v ix
  | Full _ x => x
  | Diagonal _ x => if is_diagonal ix then x else fzero
  end.

Lemma unwrap_bty (s : spec F) : bty_of (unwrap s) = spec_bty s.
Proof.
  destruct s; simpl; auto using full_bty.
  unfold diagonal; apply build_bty.
Qed.

Lemma unwrap_build (s : spec F) : spec_wf s -> unwrap s = build (spec_bty s) (sfun s).
Proof.
  destruct s; simpl; intro W.
  - apply value_eta; auto.
  - rewrite full_build; reflexivity.
  - reflexivity.
Qed.

Lemma unwrap_wf (s : spec F) : spec_wf s -> vwf (unwrap s).
Proof.
  destruct s; simpl; intro W; auto using full_wf.
  unfold diagonal; apply build_wf; auto.
Qed.

Lemma spec_wf_bty (s : spec F) : spec_wf s -> bty_wf (spec_bty s).
Proof. destruct s; simpl; auto using vwf_bty. Qed.

Lemma vat_unwrap d (s : spec F) ix :
  spec_wf s -> in_box (tdims_of (spec_bty s)) ix -> vat d (unwrap s) ix = sfun s ix.
Proof. intros W H; rewrite unwrap_build by auto; apply vat_build; auto. Qed.

Lemma spec_map_unwrap (B : Type) (SB : Scalar B) (g : F -> B) (s : spec F) :
  spec_wf s ->
  @unwrap B SB (spec_map g s) = vmap g (unwrap s).
Proof.
  destruct s; simpl; intro W; auto.
  - rewrite full_build, full_build, vmap_build; reflexivity.
  - unfold diagonal; rewrite vmap_build; apply build_ext; intros ix _.
    destruct (is_diagonal ix); reflexivity.
Qed.

(** Two specs of one type that agree at every index unwrap to the same buffer. *)
Lemma spec_ext (s s' : spec F) :
  spec_wf s -> spec_wf s' -> spec_bty s = spec_bty s' ->
  (forall ix, in_box (tdims_of (spec_bty s)) ix -> sfun s ix = sfun s' ix) ->
  unwrap s = unwrap s'.
Proof.
  intros W W' E H; rewrite (unwrap_build s), (unwrap_build s') by auto.
  rewrite <- E; apply build_ext; auto.
Qed.

End SpecFacts.

Lemma spec_map_bty F B (S : Scalar F) (g : F -> B) (s : spec F) :
  spec_bty (spec_map g s) = spec_bty s.
Proof. destruct s; simpl; auto using vmap_bty; apply build_bty. Qed.

Lemma spec_zip_map_unwrap F B (SF : Scalar F) (SB : Scalar B) (g : F -> F -> B) (l r : spec F) :
  spec_wf l -> spec_wf r -> swapped (spec_bty l) (spec_bty r) = false ->
  res_map unwrap (spec_zip_map g l r) = zip_map g (unwrap l) (unwrap r).
Proof.
  intros Wl Wr Sw.
  assert (G : forall (x : res incompat (value B)),
             res_map (@unwrap B SB) (res_map Raw x) = x) by (intros [ | | | ]; reflexivity).
  destruct l as [v|t x|t x], r as [v'|t' x'|t' x']; unfold spec_zip_map; try apply G.
  simpl unwrap; rewrite !full_build, zip_map_build by auto.
  simpl in Sw; rewrite Sw.
  destruct (bcast_bty t t') as [t''| | |]; simpl; auto.
  f_equal; rewrite full_build; apply build_ext; intros; reflexivity.
Qed.
