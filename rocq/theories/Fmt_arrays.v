(** Zero and One in the rendering of expressions with array values, in the form used by
    Properties_fmt.v. *)
From Coq Require Import List Arith Bool String ZArith Reals Lia Lra.
Import ListNotations.
From Verif Require Import Base Shapes Scalar Buffers Spec Contraction Node Eval Types Instances
  Vocab Math Real_math Calculus Index_facts Exact_facts Math_facts Instance_facts Eval_claims Math_claims
  Progress_facts Adjoint_facts Zero_facts Calculus_facts Fmt Fmt_math Fmt_claims.
Local Open Scope R_scope.

Section Arrays.
Variables (inf : R) (sp : libfn -> R -> R) (sym : ident -> string) (show : R -> string).
Notation S0 := (R_scalar inf sp).
Notation um := (real_un inf sp).
Notation dn := (@den R S0 um).
Notation te := (@to_expr R sym show).

(** All entries are zero; the entry of a scalar is one. *)
Definition zeros (T : tensor R) : Prop := forall ix, List.length ix = List.length (tdims T) -> tat T ix = 0.
Definition one_val (T : tensor R) : Prop := tdims T = [] -> tat T [] = 1.
Definition meant (e : option expr) (T : tensor R) : Prop :=
  (e = Some XZero -> zeros T) /\ (e = Some XOne -> one_val T).

Lemma text_not u p : exists q, un_expr u (XText p) = XText q.
Proof. destruct u; eexists; reflexivity. Qed.

Lemma meant_un u e (T : tensor R) : sp Lgamma 1 = 1 -> sp Lloggamma 1 = 0 ->
  match u with Erf => e <> XZero /\ e <> XOne | DiGamma => e <> XOne | _ => True end ->
  (zero_at_one u = true -> e = XOne -> tdims T = []) ->
  meant (Some e) T -> meant (Some (un_expr u e)) (Tensor (tdims T) (fun ix => um u (tat T ix))).
Proof.
  intros G1 G2 Hu Ho [Z O].
  pose proof (fun x => un_means inf sp u e x G1 G2 Hu) as M.
  destruct e as [| |p].
  - specialize (Z eq_refl); split; intro E; injection E as E; rewrite E in M; cbn [means] in M.
    + intros ix L; cbn [tat tdims] in *; auto.
    + intro D; cbn [tat tdims] in *; apply M, Z; rewrite D; auto.
  - specialize (O eq_refl); split; intro E; injection E as E; rewrite E in M; cbn [means] in M.
    + assert (D : tdims T = []).
      { apply Ho; auto; destruct u; try reflexivity; discriminate E. }
      intros ix L; cbn [tat tdims] in *; rewrite D in L; destruct ix; [|discriminate L]; auto.
    + intro D; cbn [tat tdims] in *; auto.
  - destruct (text_not u p) as [q ->]; split; discriminate.
Qed.

Lemma at_bc_zero (T : tensor R) d ix : zeros T -> tdims T = [] \/ tdims T = d -> List.length ix = List.length d -> at_bc T ix = 0.
Proof.
  intros Z D L; unfold at_bc; destruct (tdims T) eqn:E.
  - apply Z; rewrite E; auto.
  - destruct D as [D|D]; [discriminate|]; apply Z; rewrite E, D; auto.
Qed.

Lemma at_bc_one (T : tensor R) ix : one_val T -> tdims T = [] -> at_bc T ix = 1.
Proof. intros O D; unfold at_bc; rewrite D; auto. Qed.

Lemma pw_dims (f : R -> R -> R) a b da db d : tdims a = da -> tdims b = db -> zip_dims da db d ->
  tdims (pointwise f a b) = d /\ (tdims a = [] \/ tdims a = d) /\ (tdims b = [] \/ tdims b = d) /\
  (d = [] -> tdims a = [] /\ tdims b = []).
Proof.
  intros <- <- Z; unfold pointwise; cbn [tdims].
  destruct Z as [[E1 E2]|[[E1 E2]|[E1 E2]]]; destruct (tdims a), (tdims b); subst; try discriminate; repeat split; auto; try discriminate.
Qed.

Lemma sum_zero (l : list nat) (f : nat -> R) : (forall k, f k = 0) -> @sum_over R S0 nat l f = 0.
Proof.
  intro H; unfold sum_over.
  assert (G : forall a : R, fold_left (fun x k => @fadd R S0 x (f k)) l a = a).
  { induction l as [|k l IH]; intro a; auto; cbn [fold_left]; rewrite H, IH; cbn; lra. }
  apply G.
Qed.

Lemma zero_one_arrays G (c : ctx R) n k d : sp Lgamma 1 = 1 -> sp Lloggamma 1 = 0 ->
  ctx_ok G c -> typeof G n = Some k -> sty_dims k = Some d -> square G n -> (forall i, uses n i -> c i <> None) ->
  no_wrong_constant sym show n -> ones_scalar sym show (dims_at inf sp c) n -> @regular R S0 um c n ->
  meant (te n) (dn c n).
Proof.
  intros G1 G2 OK; revert k d; pose proof (R_exact inf sp) as X.
  induction n; intros k0 d Ty D Sq U W O Rg.
  - split; discriminate.
  - split; cbn [to_expr]; unfold ident_eqb; destruct (Nat.eqb_spec i t); try discriminate; intros _.
    + intros ix L; cbn [den tat]; rewrite (proj2 (Nat.eqb_neq i t)); auto.
    + intro E; subst t; cbn [den tat tdims] in *; rewrite Nat.eqb_refl; apply app_eq_nil in E as [-> _]; reflexivity.
  - destruct v; split; discriminate.
  - split; discriminate.
  - split; [|discriminate]; intros _ ix L; reflexivity.
  - split; discriminate.
  - cbn [typeof square uses no_wrong_constant ones_scalar regular to_expr den] in *; destruct W as [W1 W2], O as [O1 O2].
    specialize (IHn _ _ Ty D Sq U W1 O1 Rg); destruct (te n) as [e|]; [|split; discriminate].
    cbn [option_map]; apply meant_un; auto.
    + destruct u; auto.
      * intro; subst e; apply W2; reflexivity.
      * destruct W2 as [W2 W3]; split; intro; subst e; [apply W2|apply W3]; reflexivity.
    + intros Z1 E; subst e; apply (O2 Z1 eq_refl).
  - split; discriminate.
  - cbn [typeof square uses no_wrong_constant ones_scalar regular to_expr den] in *; destruct W, O, Rg as (R1 & R2 & R3), Sq as [Q1 Q2].
    apply obind_some in Ty; destruct Ty as (kl & Kl & Ty); apply obind_some in Ty; destruct Ty as (kr & Kr & Ty).
    destruct kl, kr; try discriminate.
    assert (D1 : tdims (dn c n1) = []) by (eapply typed_dims; eauto; reflexivity).
    assert (D2 : tdims (dn c n2) = []) by (eapply typed_dims; eauto; reflexivity).
    destruct (IHn1 KS [] Kl eq_refl Q1 ltac:(auto) H H1 R1) as [Z1 O1].
    destruct (IHn2 KS [] Kr eq_refl Q2 ltac:(auto) H0 H2 R2) as [Z2 O2].
    destruct (te n1) as [e1|]; [|split; discriminate]; destruct (te n2) as [e2|]; [|split; discriminate].
    assert (Z1' : e1 = XZero -> tat (dn c n1) [] = 0) by (intros ->; apply (Z1 eq_refl); rewrite D1; auto).
    assert (Z2' : e2 = XZero -> tat (dn c n2) [] = 0) by (intros ->; apply (Z2 eq_refl); rewrite D2; auto).
    assert (O1' : e1 = XOne -> tat (dn c n1) [] = 1) by (intros ->; apply (O1 eq_refl); auto).
    assert (O2' : e2 = XOne -> tat (dn c n2) [] = 1) by (intros ->; apply (O2 eq_refl); auto).
    split; intro E; injection E as E.
    + assert (E1 : e1 = XZero) by (destruct e1, e2; cbn in E; discriminate || reflexivity).
      intros ix L; cbn [tat]; rewrite (Z1' E1); apply (ex_0pow X); apply R3; auto.
    + intros _; cbn [tat].
      assert (E1 : e2 = XZero \/ e1 = XOne) by (destruct e1, e2; cbn in E; auto; discriminate).
      destruct E1 as [E1|E1]; [rewrite (Z2' E1); apply (ex_pow0 X)|rewrite (O1' E1); apply (ex_1pow X)].
  - cbn [typeof square uses no_wrong_constant ones_scalar regular to_expr den] in *; destruct W, O, Rg as (R1 & R2), Sq as [Q1 Q2].
    apply obind_some in Ty; destruct Ty as (kl & Kl & Ty); apply obind_some in Ty; destruct Ty as (kr & Kr & Ty).
    destruct (zip_sty_back _ _ _ _ Ty D) as (da & db & A & B), (zip_sty_dims _ _ _ _ _ Ty A B) as (d' & D' & Z).
    assert (D1 : tdims (dn c n1) = da) by (eapply typed_dims; eauto).
    assert (D2 : tdims (dn c n2) = db) by (eapply typed_dims; eauto).
    destruct (IHn1 kl da Kl A Q1 ltac:(auto) H H1 R1) as [Z1 O1].
    destruct (IHn2 kr db Kr B Q2 ltac:(auto) H0 H2 R2) as [Z2 O2].
    destruct (pw_dims (@fadd R S0) _ _ _ _ _ D1 D2 Z) as (P1 & P2 & P3 & P4).
    destruct (te n1) as [e1|]; [|split; discriminate]; destruct (te n2) as [e2|]; [|split; discriminate].
    split; intro E; injection E as E.
    + intros ix L; rewrite P1 in L; cbn [pointwise tat].
      assert (E1 : e1 = XZero /\ e2 = XZero) by (destruct e1, e2; cbn in E; auto; discriminate).
      destruct E1 as [-> ->]; rewrite (at_bc_zero _ d'), (at_bc_zero _ d'); auto; cbn; lra.
    + intro N; rewrite P1 in N; destruct (P4 N) as [N1 N2]; cbn [pointwise tat]; unfold at_bc; rewrite N1, N2.
      assert (E1 : e1 = XZero /\ e2 = XOne \/ e1 = XOne /\ e2 = XZero) by (destruct e1, e2; cbn in E; auto; discriminate).
      destruct E1 as [[-> ->]|[-> ->]].
      * rewrite (Z1 eq_refl), (O2 eq_refl) by (try rewrite N1; auto); cbn; lra.
      * rewrite (Z2 eq_refl), (O1 eq_refl) by (try rewrite N2; auto); cbn; lra.
  - cbn [typeof square uses no_wrong_constant ones_scalar regular to_expr den] in *; destruct W, O as (O1' & O2' & Os), Rg as (R1 & R2 & _), Sq as [Q1 Q2].
    apply obind_some in Ty; destruct Ty as (kl & Kl & Ty); apply obind_some in Ty; destruct Ty as (kr & Kr & Ty).
    destruct (zip_sty_back _ _ _ _ Ty D) as (da & db & A & B), (zip_sty_dims _ _ _ _ _ Ty A B) as (d' & D' & Z).
    assert (D1 : tdims (dn c n1) = da) by (eapply typed_dims; eauto).
    assert (D2 : tdims (dn c n2) = db) by (eapply typed_dims; eauto).
    destruct (IHn1 kl da Kl A Q1 ltac:(auto) H O1' R1) as [Z1 O1].
    destruct (IHn2 kr db Kr B Q2 ltac:(auto) H0 O2' R2) as [Z2 O2].
    destruct (pw_dims (@fsub R S0) _ _ _ _ _ D1 D2 Z) as (P1 & P2 & P3 & P4).
    destruct (te n1) as [e1|]; [|split; discriminate]; destruct (te n2) as [e2|]; [|split; discriminate].
    split; intro E; injection E as E.
    + intros ix L; rewrite P1 in L; cbn [pointwise tat].
      assert (E1 : e1 = XZero /\ e2 = XZero \/ e1 = XOne /\ e2 = XOne) by (destruct e1, e2; cbn in E; auto; discriminate).
      destruct E1 as [[-> ->]|[-> ->]].
      * rewrite (at_bc_zero _ d'), (at_bc_zero _ d'); auto; cbn; lra.
      * destruct (Os eq_refl eq_refl) as [->|[N1 N2]]; [cbn; lra|].
        unfold dims_at, rden in N1, N2; rewrite (at_bc_one _ _ (O1 eq_refl) N1), (at_bc_one _ _ (O2 eq_refl) N2); cbn; lra.
    + intro N; rewrite P1 in N; destruct (P4 N) as [N1 N2]; cbn [pointwise tat]; unfold at_bc; rewrite N1, N2.
      assert (E1 : e1 = XOne /\ e2 = XZero) by (destruct e1, e2; cbn in E; auto; discriminate).
      destruct E1 as [-> ->]; rewrite (Z2 eq_refl), (O1 eq_refl) by (try rewrite N2; auto); cbn; lra.
  - cbn [typeof square uses no_wrong_constant ones_scalar regular to_expr den] in *; destruct W, O, Rg as (R1 & R2), Sq as [Q1 Q2].
    apply obind_some in Ty; destruct Ty as (kl & Kl & Ty); apply obind_some in Ty; destruct Ty as (kr & Kr & Ty).
    destruct (zip_sty_back _ _ _ _ Ty D) as (da & db & A & B), (zip_sty_dims _ _ _ _ _ Ty A B) as (d' & D' & Z).
    assert (D1 : tdims (dn c n1) = da) by (eapply typed_dims; eauto).
    assert (D2 : tdims (dn c n2) = db) by (eapply typed_dims; eauto).
    destruct (IHn1 kl da Kl A Q1 ltac:(auto) H H1 R1) as [Z1 O1].
    destruct (IHn2 kr db Kr B Q2 ltac:(auto) H0 H2 R2) as [Z2 O2].
    destruct (pw_dims (@fmul R S0) _ _ _ _ _ D1 D2 Z) as (P1 & P2 & P3 & P4).
    destruct (te n1) as [e1|]; [|split; discriminate]; destruct (te n2) as [e2|]; [|split; discriminate].
    split; intro E; injection E as E.
    + intros ix L; rewrite P1 in L; cbn [pointwise tat].
      assert (E1 : e1 = XZero \/ e2 = XZero) by (destruct e1, e2; cbn in E; auto; discriminate).
      destruct E1 as [->| ->]; [rewrite (at_bc_zero (dn c n1) d')|rewrite (at_bc_zero (dn c n2) d')]; auto; cbn; lra.
    + intro N; rewrite P1 in N; destruct (P4 N) as [N1 N2]; cbn [pointwise tat]; unfold at_bc; rewrite N1, N2.
      assert (E1 : e1 = XOne /\ e2 = XOne) by (destruct e1, e2; cbn in E; auto; discriminate).
      destruct E1 as [-> ->]; rewrite (O1 eq_refl), (O2 eq_refl) by auto; cbn; lra.
  - cbn [typeof square uses no_wrong_constant ones_scalar regular to_expr den] in *; destruct W, O, Rg as (R1 & R2 & _), Sq as [Q1 Q2].
    apply obind_some in Ty; destruct Ty as (kl & Kl & Ty); apply obind_some in Ty; destruct Ty as (kr & Kr & Ty).
    destruct (zip_sty_back _ _ _ _ Ty D) as (da & db & A & B), (zip_sty_dims _ _ _ _ _ Ty A B) as (d' & D' & Z).
    assert (D1 : tdims (dn c n1) = da) by (eapply typed_dims; eauto).
    assert (D2 : tdims (dn c n2) = db) by (eapply typed_dims; eauto).
    destruct (IHn1 kl da Kl A Q1 ltac:(auto) H H1 R1) as [Z1 O1].
    destruct (IHn2 kr db Kr B Q2 ltac:(auto) H0 H2 R2) as [Z2 O2].
    destruct (pw_dims (@fdiv R S0) _ _ _ _ _ D1 D2 Z) as (P1 & P2 & P3 & P4).
    destruct (te n1) as [e1|]; [|split; discriminate]; destruct (te n2) as [e2|]; [|split; discriminate].
    split; intro E; injection E as E.
    + intros ix L; rewrite P1 in L; cbn [pointwise tat].
      assert (E1 : e1 = XZero) by (destruct e1, e2; cbn in E; auto; discriminate).
      subst e1; rewrite (at_bc_zero (dn c n1) d') by auto; cbn; unfold Rdiv; lra.
    + intro N; rewrite P1 in N; destruct (P4 N) as [N1 N2]; cbn [pointwise tat]; unfold at_bc; rewrite N1, N2.
      assert (E1 : e1 = XOne /\ e2 = XOne) by (destruct e1, e2; cbn in E; auto; discriminate).
      destruct E1 as [-> ->]; rewrite (O1 eq_refl), (O2 eq_refl) by auto; cbn; unfold Rdiv; rewrite Rinv_1; lra.
  - cbn [typeof square uses] in Ty, Sq, U.
    apply obind_some in Ty; destruct Ty as (kl & Kl & Ty); apply obind_some in Ty; destruct Ty as (kr & Kr & Ty).
    assert (Q12 : square G n1 /\ square G n2) by (destruct axes; tauto); destruct Q12 as [Q1 Q2].
    destruct (contract_sty_back _ _ _ _ Ty) as (da & db & A & B), (contract_sty_dims _ _ _ _ _ _ Ty A B) as (d' & D' & C).
    assert (D1 : tdims (dn c n1) = da) by (eapply typed_dims; eauto).
    assert (D2 : tdims (dn c n2) = db) by (eapply typed_dims; eauto).
    assert (OO : ones_scalar sym show (dims_at inf sp c) n1 /\ ones_scalar sym show (dims_at inf sp c) n2 /\
                 (axes <> 0%nat -> te n1 = Some XOne -> te n2 = Some XOne -> da = [] /\ db = [])).
    { unfold dims_at, rden in *; destruct axes; cbn [ones_scalar] in O; [|rewrite D1, D2 in O]; tauto. }
    destruct OO as (Oa & Ob & Os).
    assert (RR : @regular R S0 um c n1 /\ @regular R S0 um c n2) by (destruct axes; cbn [regular] in Rg; tauto).
    cbn [no_wrong_constant] in W.
    destruct (IHn1 kl da Kl A Q1 ltac:(auto) (proj1 W) Oa (proj1 RR)) as [Z1 O1].
    destruct (IHn2 kr db Kr B Q2 ltac:(auto) (proj2 W) Ob (proj2 RR)) as [Z2 O2].
    assert (TE : forall e, te (Contract axes n1 n2) = Some e ->
      (e = XZero -> te n1 = Some XZero \/ te n2 = Some XZero) /\ (e = XOne -> te n1 = Some XOne /\ te n2 = Some XOne)).
    { intros e; destruct axes as [|[|[|axes]]]; cbn [to_expr]; try discriminate;
      (destruct (te n1) as [e1|]; [|discriminate]; destruct (te n2) as [e2|]; [|discriminate]);
      cbn [obind option_map]; intro E; injection E as <-; destruct e1, e2; cbn; split; intro; auto; discriminate. }
    clear D; split; intro E; destruct (TE _ E) as [T1 T2]; clear TE.
    + specialize (T1 eq_refl); cbn [den]; destruct axes as [|axes].
      * intros ix L; unfold outer in *; cbn [tdims tat] in *; rewrite app_length in L.
        destruct T1 as [T1|T1].
        -- rewrite (Z1 T1 (firstn _ ix)); [cbn; lra|]; rewrite firstn_length; lia.
        -- rewrite (Z2 T1 (skipn _ ix)); [cbn; lra|]; rewrite skipn_length; lia.
      * cbn [contract_dims] in C; destruct C as [(-> & -> & ->)|C].
        -- unfold inner; rewrite D1, D2; intros ix L; cbn [tat]; destruct T1 as [T1|T1];
             [rewrite (Z1 T1)|rewrite (Z2 T1)]; try (rewrite ?D1, ?D2; auto); cbn; lra.
        -- assert (Sh : exists a0 a' b0 b', da = a0 :: a' /\ db = b0 :: b') by
             (destruct C as [(n & -> & -> & ->)|[(n & m & -> & -> & ->)|[(n & z & m & -> & -> & ->)|(n & m & -> & -> & ->)]]]; eauto 6).
           destruct Sh as (a0 & a' & b0 & b' & Ea & Eb).
           intros ix; unfold inner; rewrite D1, D2, Ea, Eb; cbn [tdims tat]; intro L.
           apply sum_zero; intro k'.
           assert (Lr : List.length (removelast (a0 :: a')) = List.length a').
           { rewrite removelast_firstn_len, firstn_length; cbn [List.length]; lia. }
           rewrite app_length, Lr in L; cbn [tl] in L; cbn [List.length]; rewrite ?Nat.sub_succ, ?Nat.sub_0_r.
           destruct T1 as [T1|T1].
           ++ rewrite (Z1 T1); [cbn; lra|]; rewrite D1, Ea, app_length, firstn_length; cbn [List.length]; lia.
           ++ rewrite (Z2 T1); [cbn; lra|]; rewrite D2, Eb; cbn [List.length]; rewrite skipn_length; lia.
    + destruct (T2 eq_refl) as [T3 T4]; cbn [den]; destruct axes as [|axes].
      * intro N; unfold outer in *; cbn [tdims tat] in *; apply app_eq_nil in N as [N1 N2]; rewrite N1; cbn [List.length firstn skipn].
        rewrite (O1 T3 N1), (O2 T4 N2); cbn; lra.
      * destruct (Os ltac:(discriminate) T3 T4) as [-> ->].
        unfold inner; rewrite D1, D2; intros _; cbn [tat]; rewrite (O1 T3 D1), (O2 T4 D2); cbn; lra.
Qed.

Lemma arrays_sound G (c : ctx R) n k :
  let S := R_scalar inf sp in
  sp Lgamma 1 = 1 -> sp Lloggamma 1 = 0 ->
  node_wf n -> novec G n -> square G n -> typeof G n = Some k -> cache_free n = true ->
  ctx_ok G c -> (forall i, uses n i -> c i <> None) -> regular (real_un inf sp) c n ->
  no_wrong_constant sym show n -> ones_scalar sym show (dims_at inf sp c) n ->
  exists v, evaluate n c = (c, Ok v) /\
    (to_expr sym show n = Some XZero -> forall ix, in_box (dims (vshape v)) ix -> vat 0 v ix = 0) /\
    (to_expr sym show n = Some XOne -> dims (vshape v) = [] -> vat 0 v [] = 1).
Proof.
  intros S G1 G2 W N Q Ty F O U Rg Nw Os.
  destruct (value_real_total inf sp G n k c W N Q Ty F O U Rg) as (v & Ev & Tv & Dv & Av).
  exists v; split; auto.
  assert (D : exists d, sty_dims k = Some d).
  { pose proof (novec_ty G n k N Ty) as K; destruct k; cbn; eauto; congruence. }
  destruct D as [d D].
  destruct (zero_one_arrays G c n k d G1 G2 O Ty D Q U Nw Os Rg) as [Z1 O1].
  split; intro T.
  - intros ix B; rewrite Dv in B; cbn in Av; rewrite (Av ix B); apply (Z1 T); apply in_box_length; auto.
  - intro B; rewrite Dv in B; cbn in Av; rewrite (Av []); [apply (O1 T B)|]; rewrite B; constructor.
Qed.
End Arrays.

(** Ones with array values that are not scalars. *)
Lemma wrong_arrays (sym : ident -> string) :
  let S := Z_scalar in let te := to_expr sym (fun _ : Z => ""%string) in
  let c := ctx2 (vec2 3 4) (VScal 5%Z) in
  let ones := Un OneSub (VarAdj 1%nat 0%nat) : node Z in
  (te (Un OneSub (VarAdj 0%nat 0%nat)) = Some XZero /\
   evaluate (Un OneSub (VarAdj 0%nat 0%nat)) c = (c, Ok (mat22 0 1 1 0))) /\
  (te (Sub (VarAdj 0%nat 0%nat) (Contract 0 ones ones)) = Some XZero /\
   evaluate (Sub (VarAdj 0%nat 0%nat) (Contract 0 ones ones)) c = (c, Ok (mat22 0 (-1) (-1) 0))) /\
  (te (Contract 1 ones ones) = Some XOne /\ evaluate (Contract 1 ones ones) c = (c, Ok (VScal 2%Z))).
Proof. repeat split; vm_compute; reflexivity. Qed.
