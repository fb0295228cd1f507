(** The adjoint of a contraction, entry by entry, in the form used by Properties_calculus.v. *)
From Coq Require Import List Arith ZArith Reals Bool Lia Lra.
Import ListNotations.
From Verif Require Import Base Shapes Scalar Buffers Spec Contraction Node Eval Types Instances
  Vocab Math Real_math Calculus Index_facts Shapes_facts Buffers_facts Typing_facts Eval_facts
  Exact_facts Math_facts Instance_facts Eval_claims Math_claims Adjoint_facts Zero_facts Calculus_facts Jacobian_facts
  Adjoint_claims Calculus_claims.
Local Open Scope R_scope.

Section Claims.
Variables (inf : R) (sp : libfn -> R -> R).
Notation S0 := (R_scalar inf sp).
Notation um := (real_un inf sp).
Notation den' := (rden inf sp).

(** Evaluation of an operand and of its adjoint. *)
Record operand_facts (c : ctx R) (t : ident) (T : list nat) (m m' : node R) (d : list nat) (v w : value R) : Prop := {
  o_val : @evaluate R S0 m c = (c, Ok v);
  o_adj : @evaluate_adjoint R S0 m t c = Some (c, Ok w);
  o_dims : dims (vshape v) = d;
  o_dims' : dims (vshape w) = (d ++ T)%list;
  o_den : tdims (den' c m) = d;
  o_den' : tdims (den' c m') = (d ++ T)%list;
  o_at : forall i, in_box d i -> vat 0 v i = tat (den' c m) i;
  o_at' : forall i, in_box (d ++ T) i -> vat 0 w i = tat (den' c m') i;
  o_jac : jac inf sp c t T m m' d
}.

Lemma operand_ok G (c : ctx R) t m m' T kt :
  posed G c t m m' -> @regular R S0 um c m -> smooth inf sp c t m ->
  G t = Some kt -> sty_dims kt = Some T ->
  exists k k' d v w, typeof G m = Some k /\ typeof G m' = Some k' /\ sty_dims k = Some d /\
    sty_dims k' = Some (d ++ T)%list /\ operand_facts c t T m m' d v w /\ @regular R S0 um c m' /\
    forall j, in_box T j -> exists e, 0 < e /\ forall h, Rabs h < e -> @regular R S0 um (bump c t j h) m.
Proof.
  intros [O U W F Sc A Ty Ty' Q Q'] Rg Sm Gt DT; assert (N := gradient_novec _ _ _ _ A Ty').
  destruct (typeof G m) as [k|] eqn:Tm; [|congruence]; destruct (typeof G m') as [k'|] eqn:Tm'; [|congruence].
  assert (Un : forall i, uses m i -> c i <> None) by auto.
  assert (Un' : forall i, uses m' i -> c i <> None).
  { intros i Ui; destruct (adjoint_uses _ _ _ _ A Ui); auto. }
  assert (Ct : c t <> None) by auto.
  destruct (both_dims inf sp G c t T kt O Ct Gt DT m m' k k' Sc A Tm Tm' Q Q' Un) as (d & D1 & D2 & D3 & D4).
  assert (Rg' := regular_adj inf sp G c t T kt O Ct Gt DT m m' k k' Sc A Tm Tm' Q Q' Un Sm Rg).
  destruct (value_real_total inf sp G m k c W N Q Tm F O Un Rg) as (v & Ev & _ & H1 & H2).
  destruct (value_real_total inf sp G m' k' c (adjoint_wf _ _ _ W A) (adjoint_novec _ _ _ _ A N) Q' Tm'
     (adjoint_cache_free _ _ _ F A) O Un' Rg') as (w & Ew & _ & H3 & H4).
  assert (D3' := D3); assert (D4' := D4); unfold rden in D3', D4'; rewrite D3' in H1, H2; rewrite D4' in H3, H4.
  exists k, k', d, v, w; split; auto; split; auto; split; auto; split; auto; split; [|split; auto].
  - constructor; auto.
    + unfold evaluate_adjoint; rewrite A; cbn [option_map]; rewrite Ew; auto.
    + exact (adjoint_jac inf sp G c t T kt O Ct Gt DT m m' k k' d Sc A Tm Tm' D1 Q Q' Un Sm).
  - intros j Bj; exact (near_regular inf sp G c t T kt O Ct Gt DT m m' k k' j Sc A Tm Tm' Q Q' Un Sm Rg Bj).
Qed.

Lemma posed_parts G (c : ctx R) t axes l r n' : posed G c t (Contract axes l r) n' ->
  exists l' r', n' = Add (Contract axes l r') (Contract axes l' r) /\ posed G c t l l' /\ posed G c t r r' /\
    exists kl kr kl' kr' kx ky kz k, typeof G l = Some kl /\ typeof G r = Some kr /\ typeof G l' = Some kl' /\ typeof G r' = Some kr' /\
      contract_sty axes kl kr = Some k /\ contract_sty axes kl kr' = Some kx /\ contract_sty axes kl' kr = Some ky /\
      zip_sty kx ky = Some kz /\ square_sty axes kl kr /\ square_sty axes kl kr' /\ square_sty axes kl' kr.
Proof.
  intros [O U W F Sc A Ty Ty' Q Q']; cbn [adjoint] in A.
  destruct (adjoint l t) as [l'|] eqn:Al; [|discriminate]; destruct (adjoint r t) as [r'|] eqn:Ar; [|discriminate].
  cbn [obind] in A; injection A as <-; exists l', r'; split; auto.
  destruct (typeof G (Contract axes l r)) as [k|] eqn:E1; [|congruence].
  destruct (typeof G (Add (Contract axes l r') (Contract axes l' r))) as [kz|] eqn:E2; [|congruence].
  cbn [node_wf cache_free scalar_sums square typeof uses] in *.
  apply andb_true_iff in F; destruct F, W, Sc.
  destruct Q as (Q1 & Q2 & Q3), Q' as ((Q4 & Q5 & Q6) & (Q7 & Q8 & Q9)).
  obs; unis.
  split; [|split].
  - constructor; auto; try congruence; intros i [Ui| ->]; auto.
  - constructor; auto; try congruence; intros i [Ui| ->]; auto.
  - do 8 eexists; repeat (split; [eassumption|]); split; [eauto|split; eauto].
Qed.

Lemma contract_at_zero (a b : tensor R) ix : tdims a <> [] ->
  tat (@inner R S0 a b) ix = @sum_over R S0 nat (seq 0 (last (tdims a) 0%nat))
    (fun k => tat a (firstn (length (tdims a) - 1) ix ++ [k]) * tat b (k :: skipn (length (tdims a) - 1) ix)).
Proof. intros Na; unfold inner; destruct (tdims a); [congruence|reflexivity]. Qed.

(** Everything about the operands, and evaluation of the whole near [c]. *)
Lemma contract_setup G (c : ctx R) t axes l r n' :
  posed G c t (Contract axes l r) n' -> @regular R S0 um c (Contract axes l r) ->
  smooth inf sp c t l -> smooth inf sp c t r ->
  exists l' r' dl dr d T x vl vr wl wr w,
    n' = Add (Contract axes l r') (Contract axes l' r) /\
    operand_facts c t T l l' dl vl wl /\ operand_facts c t T r r' dr vr wr /\
    @evaluate_adjoint R S0 (Contract axes l r) t c = Some (c, Ok w) /\ c t = Some x /\ dims (vshape x) = T /\
    dims (vshape w) = (d ++ T)%list /\ tdims (den' c n') = (d ++ T)%list /\ tdims (den' c (Contract axes l r)) = d /\
    (forall i, in_box (d ++ T) i -> vat 0 w i = tat (den' c n') i) /\
    contract_dims axes dl dr d /\ contract_dims axes dl (dr ++ T) (d ++ T) /\ contract_dims axes (dl ++ T) dr (d ++ T) /\
    tdims (den' c (Contract axes l r')) = (d ++ T)%list /\ tdims (den' c (Contract axes l' r)) = (d ++ T)%list /\
    (T <> [] -> axes <> 0%nat -> exists n, dl = [n] /\ dr = [n] /\ T = [n]) /\
    forall i j D, in_box d i -> in_box T j ->
      derivable_pt_lim (fun h => tat (den' (bump c t j h) (Contract axes l r)) i) 0 D ->
      derivable_pt_lim (fun h => entry inf sp (Contract axes l r) (bump c t j h) i) 0 D.
Proof.
  intros P Rg Sl Sr; assert (P0 := P).
  destruct (posed_parts _ _ _ _ _ _ _ P) as (l' & r' & En & Pl & Pr & kl & kr & kl' & kr' & kx & ky & kz & k &
    Tl & Tr & Tl' & Tr' & Ck & Cx & Cy & Zk & Sq1 & Sq2 & Sq3).
  destruct P0 as [O U W F Sc A Ty Ty' Q Q']; assert (N := gradient_novec _ _ _ _ A Ty').
  assert (Ct : c t <> None) by auto.
  assert (Tn : typeof G (Contract axes l r) = Some k) by (cbn [typeof]; rewrite Tl, Tr; auto).
  assert (Tn' : typeof G n' = Some kz) by (rewrite En; cbn [typeof]; rewrite Tl, Tr, Tl', Tr'; cbn [obind]; rewrite Cx, Cy; auto).
  destruct (adjoint_dims G t _ n' k kz Sc A Tn Tn') as (d & T & kt & D & Gt & DT & D').
  assert (Rl : @regular R S0 um c l) by (destruct axes; cbn [regular] in Rg; tauto).
  assert (Rr : @regular R S0 um c r) by (destruct axes; cbn [regular] in Rg; tauto).
  destruct (operand_ok G c t l l' T kt Pl Rl Sl Gt DT) as (kl0 & kl0' & dl & vl & wl & X1 & X2 & Dl & Dl' & Ol & Rl' & Nl).
  destruct (operand_ok G c t r r' T kt Pr Rr Sr Gt DT) as (kr0 & kr0' & dr & vr & wr & X3 & X4 & Dr & Dr' & Or & Rr' & Nr).
  assert (kl0 = kl) by congruence; assert (kl0' = kl') by congruence.
  assert (kr0 = kr) by congruence; assert (kr0' = kr') by congruence; subst kl0 kl0' kr0 kr0'.
  destruct (contract_sty_dims _ _ _ _ _ _ Ck Dl Dr) as (d1 & Q1 & E1).
  assert (d1 = d) by congruence; subst d1.
  destruct (contract_sty_dims _ _ _ _ _ _ Cx Dl Dr') as (dx & Qx & E2).
  destruct (contract_sty_dims _ _ _ _ _ _ Cy Dl' Dr) as (dy & Qy & E3).
  destruct (zip_sty_dims _ _ _ _ _ Zk Qx Qy) as (ez & _ & E4).
  destruct (contract_adj _ _ _ _ _ _ _ _ E1 E2 E3 E4) as (_ & -> & ->).
  assert (Un : forall i, uses (Contract axes l r) i -> c i <> None) by auto.
  assert (Un' : forall i, uses n' i -> c i <> None).
  { intros i Ui; destruct (adjoint_uses _ _ _ _ A Ui); subst; auto. }
  assert (Rg' : @regular R S0 um c n').
  { rewrite En; destruct axes as [|axes]; cbn [regular] in *; [tauto|].
    assert (K1 := o_den _ _ _ _ _ _ _ _ Ol); assert (K2 := o_den' _ _ _ _ _ _ _ _ Ol).
    assert (K3 := o_den _ _ _ _ _ _ _ _ Or); assert (K4 := o_den' _ _ _ _ _ _ _ _ Or).
    split; (split; [auto|split; [auto|]]).
    - eapply (sq_dims axes kl kr'); eauto.
    - eapply (sq_dims axes kl' kr); eauto. }
  destruct (value_real_total inf sp G n' kz c (adjoint_wf _ _ _ W A) (adjoint_novec _ _ _ _ A N) Q' Tn'
     (adjoint_cache_free _ _ _ F A) O Un' Rg') as (w & Ew & _ & H3 & H4).
  assert (Dn : tdims (den' c (Contract axes l r)) = d) by (unfold rden; eapply typed_dims; eauto).
  assert (Dn' : tdims (den' c n') = (d ++ T)%list) by (unfold rden; eapply typed_dims; eauto).
  destruct (c t) as [x|] eqn:Cv; [|congruence].
  exists l', r', dl, dr, d, T, x, vl, vr, wl, wr, w.
  split; auto; split; auto; split; auto.
  split; [unfold evaluate_adjoint; rewrite A; cbn [option_map]; rewrite Ew; auto|].
  split; auto.
  split.
  { destruct (O t x Cv) as [_ Kx]; assert (kt = sty_of (bty_of x)) by congruence; subst kt; apply sty_dims_v; auto. }
  unfold rden in Dn'; rewrite Dn' in H3, H4.
  split; auto; split; auto; split; auto; split; auto; split; auto; split; auto; split; auto.
  assert (Qn := Q'); rewrite En in Qn; cbn [square] in Qn; destruct Qn as (QX & QY).
  split; [|split; [|split]].
  - unfold rden; apply (typed_dims _ _ _ O _ kx); auto.
    + cbn [typeof]; rewrite Tl, Tr'; auto.
    + intros i Ui; apply Un'; rewrite En; cbn [uses] in *; tauto.
  - unfold rden; apply (typed_dims _ _ _ O _ ky); auto.
    + cbn [typeof]; rewrite Tr, Tl'; auto.
    + intros i Ui; apply Un'; rewrite En; cbn [uses] in *; tauto.
  - intros NT Na; destruct axes as [|axes]; [congruence|].
    destruct (contract_T T kt DT _ _ _ _ _ _ _ E1 E2 E3 E4) as [ET|(a & b & -> & -> & ->)]; [congruence|].
    exists a; split; auto; split; auto; f_equal.
    clear - Cx Dl Dr' Sq2; destruct axes as [|axes]; [|destruct kl, kr'; discriminate].
    destruct kl, kr'; try discriminate; cbn [sty_dims app] in *; injection Dl as ->; injection Dr' as ->; auto.
  - intros i j DD Bi Bj L.
    destruct (Nl j Bj) as (e1 & P1 & N1), (Nr j Bj) as (e2 & P2 & N2).
    apply near_eq with (f := fun h => tat (den' (bump c t j h) (Contract axes l r)) i) (d := Rmin e1 e2); auto; [apply Rmin_pos; auto|].
    intros h Hh; rewrite Rminus_0_r in Hh; symmetry; apply (entry_den inf sp G _ _ k); auto.
    + apply bump_ok; auto.
    + intros; apply bump_some; auto.
    + assert (A1 : Rabs h < e1) by (eapply Rlt_le_trans; [exact Hh|apply Rmin_l]).
      assert (A2 : Rabs h < e2) by (eapply Rlt_le_trans; [exact Hh|apply Rmin_r]).
      destruct axes as [|axes]; cbn [regular] in Rg |- *; [auto|].
      split; auto; split; auto; unfold square_dims in *.
      assert (Y1 := bump_dims inf sp c t j h l); assert (Y2 := bump_dims inf sp c t j h r).
      unfold rden in Y1, Y2; rewrite Y1, Y2; tauto.
    + rewrite bump_dims, Dn; auto.
Qed.

(** Products of vectors by a vector. *)
Lemma dot_adjoint G (c : ctx R) t axes l r n' x :
  posed G c t (Contract (S axes) l r) n' -> @regular R S0 um c (Contract (S axes) l r) ->
  smooth inf sp c t l -> smooth inf sp c t r -> c t = Some x -> dims (vshape x) <> [] ->
  exists n vl vr wl wr w,
    @evaluate R S0 l c = (c, Ok vl) /\ @evaluate R S0 r c = (c, Ok vr) /\
    @evaluate_adjoint R S0 l t c = Some (c, Ok wl) /\ @evaluate_adjoint R S0 r t c = Some (c, Ok wr) /\
    @evaluate_adjoint R S0 (Contract (S axes) l r) t c = Some (c, Ok w) /\
    dims (vshape vl) = [n] /\ dims (vshape vr) = [n] /\ dims (vshape x) = [n] /\ dims (vshape w) = [n] /\
    forall j, (j < n)%nat ->
      vat 0 w [j] = @sum_over R S0 nat (seq 0 n) (fun k => vat 0 vl [k] * vat 0 wr [k; j])
                  + @sum_over R S0 nat (seq 0 n) (fun k => vat 0 wl [j; k] * vat 0 vr [k]) /\
      derivable_pt_lim (fun h => entry inf sp (Contract (S axes) l r) (bump c t [j] h) []) 0
        (@sum_over R S0 nat (seq 0 n) (fun k => vat 0 vl [k] * vat 0 wr [k; j])
         + @sum_over R S0 nat (seq 0 n) (fun k => vat 0 wl [k; j] * vat 0 vr [k])).
Proof.
  intros P Rg Sl Sr Cx Nx; assert (Wc : ctx_wf c) by (intros i v E; destruct (p_ctx _ _ _ _ _ P i v E); auto).
  destruct (contract_setup _ _ _ _ _ _ _ P Rg Sl Sr) as (l' & r' & dl & dr & d & T & x0 & vl & vr & wl & wr & w &
    En & Ol & Or & Ew & Cx0 & Dx & Dw & Dn' & Dn & Hw & C1 & C2 & C3 & DX & DY & HT & L).
  assert (x0 = x) by congruence; subst x0; rewrite Dx in Nx.
  destruct (HT Nx) as (n & -> & -> & ET); [discriminate|].
  assert (D0 : d = []).
  { destruct C1 as [(Q & _)|[(m & _ & _ & Q)|[(m & z & Q & _)|[(m & z & y & Q & _)|(m & z & _ & Q & _)]]]]; auto; discriminate. }
  destruct Ol as [Vl Al Dvl Dwl Nl Nl' Hl Hl' Jl], Or as [Vr Ar Dvr Dwr Nr Nr' Hr Hr' Jr].
  rewrite ET, D0 in *; cbn [app] in *.
  exists n, vl, vr, wl, wr, w.
  repeat (split; [assumption|]).
  intros j J.
  assert (S1 : forall f g : nat -> R, (forall k, (k < n)%nat -> f k = g k) ->
     @sum_over R S0 nat (seq 0 n) f = @sum_over R S0 nat (seq 0 n) g).
  { intros f g H; apply (sum_over_ext (R_exact inf sp)); intros k K; apply in_seq in K; apply H; lia. }
  assert (B1 : forall k, (k < n)%nat -> in_box [n] [k]) by (intros; repeat constructor; auto).
  assert (B2 : forall k m, (k < n)%nat -> (m < n)%nat -> in_box [n; n] [k; m]) by (intros; repeat constructor; auto).
  split.
  - rewrite Hw by auto; rewrite En.
    change (den' c (Add (Contract (S axes) l r') (Contract (S axes) l' r))) with
      (@pointwise R Rplus (den' c (Contract (S axes) l r')) (den' c (Contract (S axes) l' r))).
    cbn [pointwise tat]; rewrite !at_bc_in by (rewrite ?DX, ?DY; auto).
    change (den' c (Contract (S axes) l r')) with (@inner R S0 (den' c l) (den' c r')).
    change (den' c (Contract (S axes) l' r)) with (@inner R S0 (den' c l') (den' c r)).
    rewrite !contract_at_zero by (rewrite ?Nl, ?Nl'; discriminate); rewrite Nl, Nl'; cbn [last length Nat.sub firstn skipn app].
    f_equal; apply S1; intros k K.
    + rewrite Hl, Hr'; auto.
    + rewrite Hl', Hr; auto.
  - apply L; [constructor|auto|].
    apply lim_eq with (f := fun h => @sum_over R S0 nat (seq 0 n)
         (fun k => tat (den' (bump c t [j] h) l) [k] * tat (den' (bump c t [j] h) r) [k]))
      (l := @sum_over R S0 nat (seq 0 n) (fun k => tat (den' c l) [k] * tat (den' c r') [k; j])
            + @sum_over R S0 nat (seq 0 n) (fun k => tat (den' c l') [k; j] * tat (den' c r) [k])).
    + intro h; change (den' (bump c t [j] h) (Contract (S axes) l r)) with
        (@inner R S0 (den' (bump c t [j] h) l) (den' (bump c t [j] h) r)).
      rewrite contract_at_zero; rewrite bump_dims, Nl; [reflexivity|discriminate].
    + f_equal; apply S1; intros k K.
      * rewrite Hl, Hr'; auto.
      * rewrite Hl', Hr; auto.
    + apply (sum_prod_lim inf sp G c t (p_ctx _ _ _ _ _ P) l r n (fun k => [k]) (fun k => [k]) [j]).
      * intros k K; apply (Jl [k] [j]); auto.
      * intros k K; apply (Jr [k] [j]); auto.
Qed.

Lemma dot_correct_iff G (c : ctx R) t axes l r n' x :
  posed G c t (Contract (S axes) l r) n' -> @regular R S0 um c (Contract (S axes) l r) ->
  smooth inf sp c t l -> smooth inf sp c t r -> c t = Some x -> dims (vshape x) <> [] ->
  exists n vr wl w,
    @evaluate R S0 r c = (c, Ok vr) /\ @evaluate_adjoint R S0 l t c = Some (c, Ok wl) /\
    @evaluate_adjoint R S0 (Contract (S axes) l r) t c = Some (c, Ok w) /\ dims (vshape x) = [n] /\
    forall j, (j < n)%nat ->
      derivable_pt_lim (fun h => entry inf sp (Contract (S axes) l r) (bump c t [j] h) []) 0 (vat 0 w [j]) <->
      @sum_over R S0 nat (seq 0 n) (fun k => vat 0 wl [j; k] * vat 0 vr [k]) =
      @sum_over R S0 nat (seq 0 n) (fun k => vat 0 wl [k; j] * vat 0 vr [k]).
Proof.
  intros P Rg Sl Sr Cx Nx.
  destruct (dot_adjoint _ _ _ _ _ _ _ _ P Rg Sl Sr Cx Nx) as (n & vl & vr & wl & wr & w & Vl & Vr & Al & Ar & Aw & D1 & D2 & D3 & D4 & H).
  exists n, vr, wl, w; repeat (split; [assumption|]).
  intros j J; destruct (H j J) as (Hw & HD); rewrite Hw; split.
  - intro L; assert (Q := uniqueness_limite _ _ _ _ HD L); lra.
  - intros ->; exact HD.
Qed.

(** Outer products by an array. *)
Lemma outer_adjoint G (c : ctx R) t l r n' :
  posed G c t (Contract 0 l r) n' -> @regular R S0 um c (Contract 0 l r) ->
  smooth inf sp c t l -> smooth inf sp c t r ->
  exists x vl vr wl wr w,
    c t = Some x /\ @evaluate R S0 l c = (c, Ok vl) /\ @evaluate R S0 r c = (c, Ok vr) /\
    @evaluate_adjoint R S0 l t c = Some (c, Ok wl) /\ @evaluate_adjoint R S0 r t c = Some (c, Ok wr) /\
    @evaluate_adjoint R S0 (Contract 0 l r) t c = Some (c, Ok w) /\
    dims (vshape w) = (dims (vshape vl) ++ dims (vshape vr) ++ dims (vshape x))%list /\
    forall i k j, in_box (dims (vshape vl)) i -> in_box (dims (vshape vr)) k -> in_box (dims (vshape x)) j ->
      (forall j' k', (k ++ j = j' ++ k')%list -> length j' = length j ->
        vat 0 w (i ++ k ++ j) = vat 0 vl i * vat 0 wr (k ++ j) + vat 0 wl (i ++ j') * vat 0 vr k') /\
      derivable_pt_lim (fun h => entry inf sp (Contract 0 l r) (bump c t j h) (i ++ k)) 0
        (vat 0 vl i * vat 0 wr (k ++ j) + vat 0 wl (i ++ j) * vat 0 vr k).
Proof.
  intros P Rg Sl Sr; assert (Wc : ctx_wf c) by (intros i v E; destruct (p_ctx _ _ _ _ _ P i v E); auto).
  destruct (contract_setup _ _ _ _ _ _ _ P Rg Sl Sr) as (l' & r' & dl & dr & d & T & x & vl & vr & wl & wr & w &
    En & Ol & Or & Ew & Cx & Dx & Dw & Dn' & Dn & Hw & C1 & C2 & C3 & DX & DY & _ & L).
  destruct Ol as [Vl Al Dvl Dwl Nl Nl' Hl Hl' Jl], Or as [Vr Ar Dvr Dwr Nr Nr' Hr Hr' Jr].
  cbn [contract_dims] in C1, C2, C3; clear Dn; subst d.
  assert (PT : (dr ++ T = T ++ dr)%list) by (apply (app_inv_head dl); rewrite !app_assoc, C3; auto).
  exists x, vl, vr, wl, wr, w; repeat (split; [assumption|]).
  rewrite Dw, Dvl, Dvr, Dx, <- app_assoc; split; auto.
  intros i k j Bi Bk Bj.
  assert (L1 := in_box_length _ _ Bi); assert (L2 := in_box_length _ _ Bk); assert (L3 := in_box_length _ _ Bj).
  split.
  - intros j' k' Ejk Lj.
    assert (B : in_box (T ++ dr) (j' ++ k')) by (rewrite <- Ejk, <- PT; apply in_box_both; auto).
    assert (BB : in_box T j' /\ in_box dr k').
    { apply in_box_split in B; destruct B as (a & b & E & Ba & Bb).
      assert (La := in_box_length _ _ Ba).
      assert (E' : a = j' /\ b = k').
      { assert (Q1 := f_equal (firstn (length a)) E); assert (Q2 := f_equal (skipn (length a)) E).
        rewrite firstn_length_app in Q1; rewrite skipn_length_app in Q2.
        replace (length a) with (length j') in Q1, Q2 by lia.
        rewrite firstn_length_app in Q1; rewrite skipn_length_app in Q2; auto. }
      destruct E'; subst; auto. }
    destruct BB as [Bj' Bk'].
    assert (IB : in_box (dl ++ dr ++ T) (i ++ k ++ j)) by (apply in_box_both; auto; apply in_box_both; auto).
    rewrite Hw by (rewrite <- app_assoc; auto); rewrite En.
    change (den' c (Add (Contract 0 l r') (Contract 0 l' r))) with
      (@pointwise R Rplus (den' c (Contract 0 l r')) (den' c (Contract 0 l' r))).
    cbn [pointwise tat]; rewrite !at_bc_in by (rewrite ?DX, ?DY, <- app_assoc; auto).
    change (den' c (Contract 0 l r')) with (@outer R S0 (den' c l) (den' c r')).
    change (den' c (Contract 0 l' r)) with (@outer R S0 (den' c l') (den' c r)).
    cbn [outer tat]; rewrite Nl, Nl', <- L1, firstn_length_app, skipn_length_app.
    change (@fmul R S0) with Rmult; f_equal.
    + rewrite Hl, Hr'; auto; apply in_box_both; auto.
    + rewrite Ejk, app_assoc, app_length, <- L1.
      assert (La := in_box_length _ _ Bj'); replace (length i + length T)%nat with (length (i ++ j')) by (rewrite app_length; lia).
      rewrite firstn_length_app, skipn_length_app, Hl', Hr; auto; apply in_box_both; auto.
  - apply L; [apply in_box_both; auto|auto|].
    apply lim_eq with (f := fun h => tat (den' (bump c t j h) l) i * tat (den' (bump c t j h) r) k)
      (l := tat (den' c l) i * tat (den' c r') (k ++ j) + tat (den' c l') (i ++ j) * tat (den' c r) k).
    + intro h; change (den' (bump c t j h) (Contract 0 l r)) with
        (@outer R S0 (den' (bump c t j h) l) (den' (bump c t j h) r)).
      cbn [outer tat]; rewrite bump_dims, Nl, <- L1, firstn_length_app, skipn_length_app; auto.
    + rewrite Hl, Hr', Hl', Hr; auto; apply in_box_both; auto.
    + apply (prod_lim inf sp G c t (p_ctx _ _ _ _ _ P)); [apply Jl|apply Jr]; auto.
Qed.
End Claims.

(** [(y ⊗ (x . x)) . z], that is (y . z) (x . x), differentiated by [x]. *)
Local Open Scope nat_scope.
Definition G3 : tenv := fun i => match i with 0 | 1 | 2 => Some (KA [2]) | _ => None end.
Definition ctx3 (x y z : value R) : ctx R :=
  fun i => match i with 0 => Some x | 1 => Some y | 2 => Some z | _ => None end.
Definition dot_left : node R := Contract 0 (Var 1) (Contract 1 (Var 0) (Var 0)).
Definition dot_node : node R := Contract 1 dot_left (Var 2).

Lemma dot_posed inf sp (x y z : value R) :
  let S := R_scalar inf sp in let c := ctx3 x y z in
  vwf x -> vwf y -> vwf z -> bty_of x = TA [2] -> bty_of y = TA [2] -> bty_of z = TA [2] ->
  exists n', posed G3 c 0 dot_node n' /\ regular (real_un inf sp) c dot_node /\
    smooth inf sp c 0 dot_left /\ smooth inf sp c 0 (Var 2).
Proof.
  intros S c Wx Wy Wz Bx By Bz; subst S.
  assert (O : ctx_ok G3 c).
  { intros [|[|[|i]]] v E; inversion E; subst; simpl; rewrite ?Bx, ?By, ?Bz; auto. }
  assert (Wc : ctx_wf c) by (intros i v E; destruct (O i v E); auto).
  assert (Sx : dims (vshape x) = [2]) by (destruct x; try discriminate; injection Bx as ->; auto).
  assert (Sy : dims (vshape y) = [2]) by (destruct y; try discriminate; injection By as ->; auto).
  assert (Sz : dims (vshape z) = [2]) by (destruct z; try discriminate; injection Bz as ->; auto).
  eexists; split; [constructor; try reflexivity; auto|split; [|split]].
  - intros i; cbn [uses dot_node dot_left]; intros [[[-> | [-> | ->]] | ->] | ->]; discriminate.
  - cbn; auto.
  - cbn; auto.
  - discriminate.
  - discriminate.
  - cbn; repeat split; auto; intros kl kr E1 E2; injection E1 as <-; injection E2 as <-; auto.
  - cbn; repeat split; auto; intros kl kr E1 E2; try (injection E1 as <-); try (injection E2 as <-); auto.
  - cbn [regular dot_node dot_left]; unfold square_dims; cbn [den outer inner var_tensor tensor_of tdims c ctx3].
    rewrite ?Sx, ?Sy, ?Sz.
    assert (Ix : tdims (@inner R (R_scalar inf sp) (@tensor_of R (R_scalar inf sp) x) (@tensor_of R (R_scalar inf sp) x)) = [])
      by (unfold inner; cbn [tensor_of tdims]; rewrite Sx; reflexivity).
    cbn; rewrite ?Sx, ?Sy, ?Sz, ?Ix; cbn; auto 9.
  - cbn [smooth dot_left]; split; [auto|split].
    + split; [auto|split; [auto|right; apply symmetric_var; auto]].
    + right; left; unfold dims_at, rden; cbn [den]; unfold inner; cbn [den var_tensor c ctx3 tensor_of tdims].
      rewrite Sx; reflexivity.
  - exact Logic.I.
Qed.

Lemma dot_wrong : exists G (c : ctx R) t l r n' x n, posed G c t (Contract 1 l r) n' /\ c t = Some x /\
  dims (vshape x) = [n] /\
  forall inf sp, let S := R_scalar inf sp in
    regular (real_un inf sp) c (Contract 1 l r) /\ smooth inf sp c t l /\ smooth inf sp c t r /\
    exists w j, evaluate_adjoint (Contract 1 l r) t c = Some (c, Ok w) /\ j < n /\
      ~ derivable_pt_lim (fun h => entry inf sp (Contract 1 l r) (bump c t [j] h) []) 0%R (vat 0%R w [j]).
Proof.
  set (x := rvec2 1%R 0%R); set (y := rvec2 0%R 1%R); set (z := rvec2 1%R 0%R).
  assert (H := fun inf sp => dot_posed inf sp x y z (rvec2_wf _ _) (rvec2_wf _ _) (rvec2_wf _ _) eq_refl eq_refl eq_refl).
  destruct (H 0%R (fun _ _ => 0%R)) as (n' & P & _).
  exists G3, (ctx3 x y z), 0, dot_left, (Var 2), n', x, 2; split; [exact P|split; [reflexivity|split; [reflexivity|]]].
  intros inf sp S; destruct (H inf sp) as (n0 & P0 & Rg & Sl & Sr); split; [exact Rg|split; [exact Sl|split; [exact Sr|]]].
  assert (Nx : dims (vshape x) <> []) by discriminate.
  destruct (dot_correct_iff inf sp _ _ _ _ _ _ _ x P0 Rg Sl Sr eq_refl Nx) as (n & vr & wl & w & Er & El & Ew & D & I).
  injection D as <-; exists w, 1; split; [exact Ew|split; [lia|]].
  intro L; apply I in L; [|lia]; clear I.
  assert (Er' : vr = z) by (cbn in Er; congruence); subst vr.
  assert (Al : exists l', adjoint dot_left 0 = Some l') by (eexists; reflexivity); destruct Al as (l' & Al).
  destruct (posed_parts _ _ _ _ _ _ _ P0) as (l0 & r0 & _ & Pl & _).
  assert (l0 = l') by (destruct Pl; congruence); subst l0.
  assert (Rl : @regular R (R_scalar inf sp) (real_un inf sp) (ctx3 x y z) dot_left) by (destruct Rg as [Q _]; exact Q).
  destruct (operand_ok inf sp G3 (ctx3 x y z) 0 dot_left l' [2] (KA [2]) Pl Rl Sl eq_refl eq_refl)
    as (k & k' & d & v & w0 & _ & _ & _ & _ & [Vl Al' Dvl Dwl Nl Nl' Hl Hl' Jl] & _).
  assert (w0 = wl) by congruence; subst w0.
  assert (Dd : d = [2]) by (rewrite <- Nl; reflexivity); subst d.
  cbn [app] in Hl'.
  assert (V : forall p q, p < 2 -> q < 2 -> vat 0%R wl [p; q] = tat (rden inf sp (ctx3 x y z) l') [p; q]).
  { intros p q Hp Hq; apply Hl'; rewrite Dd; cbn [app]; apply Forall2_cons; [exact Hp|apply Forall2_cons; [exact Hq|apply Forall2_nil]]. }
  injection Al as <-; cbn in L; rewrite !V in L by lia; cbn in L; lra.
Qed.
