(** Proofs about [derive(Context)], [ctx_type!] and the generated contexts, in the form used by
    Properties_macros.v. *)
From Coq Require Import List Arith Bool String Lia.
Import ListNotations.
From Verif Require Import Base Shapes Scalar Buffers Spec Eval Ids Derive Vocab Math Macro_math
  Spec_facts Math_facts.
Local Open Scope string_scope.

(** * Which fields are accepted *)
Lemma get_ident_some p s : get_ident p = Some s <-> p = Path false [s].
Proof.
  destruct p as [[] [|x [|y l]]]; unfold get_ident; simpl; split; intro H; try discriminate; congruence.
Qed.

Lemma parse_id_ok m i : parse_id_attr m = Ok i <-> m = MList [NPath (Path false [i])].
Proof.
  split.
  - destruct m as [|[|[p| |] [|y l]]|]; try discriminate; simpl; unfold opt_unwrap.
    destruct (get_ident p) eqn:E; [|discriminate]; intro H; injection H as <-.
    apply get_ident_some in E; subst; auto.
  - intros ->; reflexivity.
Qed.

Definition is_ident (x : ctx_attr) : bool := match x with AIdent _ => true | _ => false end.
Definition is_cache (x : ctx_attr) : bool := match x with ACache => true | _ => false end.

Lemma parse_attr_ok a x : parse_attr a = Ok x ->
  (exists s, at_path a = Path false [s]) /\
  (is_cache x = true <-> at_path a = cache_path) /\
  (is_ident x = true <-> at_path a = id_path) /\
  (forall i, x = AIdent i <-> at_path a = id_path /\ at_meta a = MList [NPath (Path false [i])]).
Proof.
  unfold parse_attr; destruct (get_ident (at_path a)) as [s|] eqn:E; [|discriminate].
  apply get_ident_some in E; rewrite E; unfold cache_path, id_path; intro H.
  split; [eauto|].
  destruct (String.eqb_spec s "cache") as [->|N1].
  { injection H as <-; split; [simpl; split; auto|split; [simpl; split; discriminate|]].
    intro i; split; [discriminate|intros [H _]; discriminate]. }
  destruct (String.eqb_spec s "id") as [->|N2].
  { destruct (parse_id_attr (at_meta a)) as [i|e| |] eqn:P; try discriminate; injection H as <-.
    apply parse_id_ok in P; split; [simpl; split; discriminate|split; [simpl; split; auto|]].
    intro j; split; [intro H; injection H as <-; auto|intros [_ H]; rewrite P in H; congruence]. }
  injection H as <-; split; [simpl; split; [discriminate|intro H; injection H; congruence]|].
  split; [simpl; split; [discriminate|intro H; injection H; congruence]|].
  intro i; split; [discriminate|intros [H _]; injection H; congruence].
Qed.

Lemma parse_attr_total a s : at_path a = Path false [s] ->
  (at_path a = id_path -> exists i, at_meta a = MList [NPath (Path false [i])]) ->
  exists x, parse_attr a = Ok x.
Proof.
  intros E H; unfold parse_attr; rewrite (proj2 (get_ident_some _ _) E).
  destruct (String.eqb_spec s "cache"); [eauto|]; destruct (String.eqb_spec s "id"); [|eauto].
  subst s; destruct (H E) as [i M]; rewrite (proj2 (parse_id_ok _ _) M); simpl; eauto.
Qed.

Lemma parse_attrs_ok l xs : parse_attrs l = Ok xs <-> Forall2 (fun a x => parse_attr a = Ok x) l xs.
Proof.
  revert xs; induction l as [|a l IH]; intro xs; simpl; split; intro H.
  - injection H as <-; constructor.
  - inversion H; auto.
  - destruct (parse_attr a) as [x|e| |] eqn:E; try discriminate; simpl in H.
    destruct (parse_attrs l) as [ys|e| |]; try discriminate; injection H as <-.
    constructor; auto; apply IH; auto.
  - inversion H as [|? x ? ys E L]; subst; rewrite E; simpl; apply IH in L; rewrite L; auto.
Qed.

Fixpoint first_ident (l : list ctx_attr) : option string :=
  match l with [] => None | AIdent s :: _ => Some s | _ :: l' => first_ident l' end.

Lemma scan_none l c s : existsb is_ident l = false -> scan_attrs l c (Some s) = Ok (c || existsb is_cache l, Some s).
Proof.
  revert c; induction l as [|[i| |] l IH]; intros c H; simpl in *.
  - rewrite orb_false_r; auto.
  - discriminate.
  - rewrite IH by auto; rewrite orb_true_r; auto.
  - rewrite IH by auto; auto.
Qed.
Lemma scan_some l c s : existsb is_ident l = true -> scan_attrs l c (Some s) = Err TooManyIds.
Proof.
  revert c; induction l as [|[i| |] l IH]; intros c H; simpl in *; auto; discriminate.
Qed.
Lemma scan_start l c :
  scan_attrs l c None =
  if Nat.leb (List.length (filter is_ident l)) 1 then Ok (c || existsb is_cache l, first_ident l)
  else Err TooManyIds.
Proof.
  revert c; induction l as [|[i| |] l IH]; intros c; simpl.
  - rewrite orb_false_r; auto.
  - destruct (existsb is_ident l) eqn:E.
    + rewrite scan_some by auto.
      assert (1 <= List.length (filter is_ident l))%nat.
      { apply existsb_exists in E as (x & X & Y); destruct (filter is_ident l) eqn:Q; simpl; [|lia].
        assert (I : In x (filter is_ident l)) by (apply filter_In; auto); rewrite Q in I; destruct I. }
      destruct (filter is_ident l); simpl in *; [lia|auto].
    + rewrite scan_none by auto.
      replace (filter is_ident l) with (@nil ctx_attr); auto.
      clear -E; induction l as [|x l IH]; auto; simpl in *; apply orb_false_iff in E as [E1 E2].
      rewrite E1; auto.
  - rewrite IH; rewrite orb_true_r; auto.
  - apply IH.
Qed.

Lemma parsed_facts l xs : Forall2 (fun a x => parse_attr a = Ok x) l xs ->
  List.length (filter is_ident xs) = count_occ path_dec (map at_path l) id_path /\
  (existsb is_cache xs = true <-> In cache_path (map at_path l)) /\
  (first_ident xs = None <-> ~ In id_path (map at_path l)) /\
  (forall i, first_ident xs = Some i -> In (Attr id_path (MList [NPath (Path false [i])])) l).
Proof.
  induction 1 as [|a x l xs E H (I1 & I2 & I3 & I4)]; simpl.
  { repeat split; auto; try discriminate; tauto. }
  pose proof (parse_attr_ok a x E) as (_ & C & D & M).
  split; [|split; [|split]].
  - destruct (path_dec (at_path a) id_path) as [P|P].
    + rewrite (proj2 D P); simpl; auto.
    + destruct (is_ident x); [destruct (P (proj1 D eq_refl))|auto].
  - rewrite orb_true_iff, C, I2; tauto.
  - destruct x as [i| |].
    + split; [discriminate|]; intro N; exfalso; apply N; left; apply D; auto.
    + rewrite I3; split; [|tauto]; intros N [P|P]; auto; apply D in P; discriminate.
    + rewrite I3; split; [|tauto]; intros N [P|P]; auto; apply D in P; discriminate.
  - intros j J; destruct x as [i| |]; [|right; auto|right; auto].
    injection J as ->; left; destruct (proj1 (M j) eq_refl) as [P Q]; destruct a; simpl in *; congruence.
Qed.

Lemma args_ok {E} args tr segs : args_as_segments (E := E) args tr = Ok segs <->
  tr = false /\ ((args = [] /\ segs = []) \/
                 (args = [GType (TyPath false false segs)] /\ forall n, ~ In (Seg n AParen) segs)).
Proof.
  assert (P : forall l, forallb plain_seg l = true <-> forall n, ~ In (Seg n AParen) l).
  { intro l; rewrite forallb_forall; split.
    - intros H n I; apply H in I; discriminate.
    - intros H [n []] I; auto; destruct (H n I). }
  split.
  - destruct args as [|[[[] [] sg|]|] [|y l]], tr; try discriminate; simpl.
    + intro H; injection H as <-; auto.
    + destruct (forallb plain_seg sg) eqn:F; [|discriminate]; intro H; injection H as <-.
      split; auto; right; split; auto; apply P; auto.
  - intros (-> & [[-> ->]|[-> H]]); auto; simpl; apply P in H; rewrite H; auto.
Qed.

Lemma cache_ty_ok t b : parse_ty_cache t = Ok b <->
  exists q l args tr rest segs, t = TyPath q l (Seg "Option" (AAngle args tr) :: rest) /\
    b = TyPath q l segs /\ args_as_segments (E := field_error) args tr = Ok segs.
Proof.
  split.
  - destruct t as [q l [|[n [|args tr|]] rest]|]; try discriminate; simpl.
    destruct (String.eqb_spec n "Option") as [->|N]; [|discriminate].
    destruct (args_as_segments args tr) as [segs|e| |] eqn:A; try discriminate.
    intro H; injection H as <-; exists q, l, args, tr, rest, segs; auto.
  - intros (q & l & args & tr & rest & segs & -> & -> & A); simpl; rewrite A; auto.
Qed.

Lemma parse_field_ok f cf : parse_field f = Ok cf <->
  exists n xs, fd_name f = Some n /\ Forall2 (fun a x => parse_attr a = Ok x) (fd_attrs f) xs /\
    (List.length (filter is_ident xs) <= 1)%nat /\
    (existsb is_cache xs = true -> first_ident xs <> None) /\
    exists b, (if existsb is_cache xs then parse_ty_cache (fd_ty f) = Ok b else b = fd_ty f) /\
    cf = CtxField n (fd_ty f) b (first_ident xs) (existsb is_cache xs).
Proof.
  unfold parse_field; split.
  - destruct (fd_name f) as [n|]; [|discriminate].
    destruct (parse_attrs (fd_attrs f)) as [xs|e| |] eqn:P; try discriminate; simpl.
    rewrite scan_start; destruct (Nat.leb_spec (List.length (filter is_ident xs)) 1) as [L|L]; [|discriminate].
    simpl; intro H; exists n, xs; split; auto; split; [apply parse_attrs_ok; auto|]; split; auto.
    destruct (existsb is_cache xs), (first_ident xs); try discriminate;
      (split; [try discriminate; intros _; discriminate|]).
    + destruct (parse_ty_cache (fd_ty f)) as [b|e| |] eqn:T; try discriminate; simpl in H.
      injection H as <-; exists b; auto.
    + simpl in H; injection H as <-; exists (fd_ty f); auto.
    + simpl in H; injection H as <-; exists (fd_ty f); auto.
  - intros (n & xs & -> & P & L & C & b & B & ->).
    apply parse_attrs_ok in P; rewrite P; simpl; rewrite scan_start.
    apply Nat.leb_le in L; rewrite L; simpl.
    destruct (existsb is_cache xs).
    + destruct (first_ident xs); [|destruct (C eq_refl eq_refl)]; rewrite B; auto.
    + subst b; destruct (first_ident xs); auto.
Qed.

(** The exact condition. *)
Lemma field_accepted f :
  (exists cf, parse_field f = Ok cf) <-> described f /\ single_paths f /\ cache_type_ok f.
Proof.
  split.
  - intros [cf H]; apply parse_field_ok in H as (n & xs & N & P & L & C & b & B & _).
    destruct (parsed_facts _ _ P) as (F1 & F2 & F3 & _).
    assert (Q : forall a, In a (fd_attrs f) -> exists x, parse_attr a = Ok x).
    { clear -P; induction P as [|a x l xs E H IH]; simpl; [tauto|]; intros b [<-|I]; eauto. }
    split; [|split].
    + constructor.
      * congruence.
      * intros a I A; destruct (Q a I) as [x X]; pose proof (parse_attr_ok a x X) as (_ & _ & D & M).
        apply D in A; destruct x as [i| |]; try discriminate; exists i; apply (M i); auto.
      * rewrite <- F1; auto.
      * intro I; apply F2 in I; split.
        -- destruct (in_dec path_dec id_path (map at_path (fd_attrs f))) as [J|J]; auto.
           apply F3 in J; destruct (C I J).
        -- rewrite I in B; apply cache_ty_ok in B as (q & l & args & tr & rest & segs & T & _).
           exists args, tr, q, l, rest; auto.
    + intros a I; destruct (Q a I) as [x X]; apply (parse_attr_ok a x X).
    + intros I args tr (q & l & rest & T); apply F2 in I; rewrite I in B.
      apply cache_ty_ok in B as (q' & l' & args' & tr' & rest' & segs & T' & _ & A).
      rewrite T in T'; injection T' as <- <- <- <- <-; apply args_ok in A as (-> & [[-> _]|[-> A]]);
        split; auto; right; eauto.
  - intros ([N I D C] & S & T).
    destruct (fd_name f) as [n|] eqn:E; [|congruence].
    assert (Q : exists xs, Forall2 (fun a x => parse_attr a = Ok x) (fd_attrs f) xs).
    { clear -I S; unfold single_paths in S; induction (fd_attrs f) as [|a l IH]; [exists []; constructor|].
      destruct IH as [xs X]; [intros; apply I; simpl; auto|intros; apply S; simpl; auto|].
      destruct (S a (or_introl eq_refl)) as [s Ha].
      destruct (parse_attr_total a s Ha) as [x Hx]; [apply I; simpl; auto|].
      exists (x :: xs); constructor; auto. }
    destruct Q as [xs P]; destruct (parsed_facts _ _ P) as (F1 & F2 & F3 & _).
    assert (B : exists b, if existsb is_cache xs then parse_ty_cache (fd_ty f) = Ok b else b = fd_ty f).
    { destruct (existsb is_cache xs) eqn:X; [|eauto].
      pose proof (proj1 F2 eq_refl) as Y.
      destruct (C Y) as [_ (args & tr & O)]; pose proof (T Y args tr O) as (-> & A).
      destruct O as (q & l & rest & O).
      destruct A as [->|(segs & -> & A)]; eexists; apply cache_ty_ok.
      - exists q, l, [], false, rest, []; split; [exact O|split; [reflexivity|reflexivity]].
      - exists q, l, [GType (TyPath false false segs)], false, rest, segs.
        split; [exact O|split; [reflexivity|]]; apply args_ok; split; auto. }
    destruct B as [b B]; eexists; apply parse_field_ok.
    exists n, xs; split; auto; split; auto; split; [lia|]; split; [|exists b; split; [exact B|reflexivity]].
    intros X Y; apply F2 in X; apply F3 in Y; destruct (C X); contradiction.
Qed.

(** What an accepted field becomes. *)
Lemma field_result f cf : parse_field f = Ok cf ->
  fd_name f = Some (cf_name cf) /\ cf_ty cf = fd_ty f /\
  (cf_cache cf = true <-> In cache_path (map at_path (fd_attrs f))) /\
  (forall i, cf_ident cf = Some i <-> In (Attr id_path (MList [NPath (Path false [i])])) (fd_attrs f)) /\
  (cf_cache cf = false -> cf_bty cf = fd_ty f) /\
  (cf_cache cf = true -> exists q l args rest segs,
     fd_ty f = TyPath q l (Seg "Option" (AAngle args false) :: rest) /\ cf_bty cf = TyPath q l segs /\
     (args = [] /\ segs = [] \/ args = [GType (TyPath false false segs)])).
Proof.
  intro H; apply parse_field_ok in H as (n & xs & N & P & L & C & b & B & ->).
  destruct (parsed_facts _ _ P) as (F1 & F2 & F3 & F4); cbn [cf_name cf_ty cf_cache cf_ident cf_bty].
  split; auto; split; auto; split; auto; split; [|split].
  - intro i; split; [apply F4|]; intro I.
    destruct (first_ident xs) as [j|] eqn:J.
    + pose proof (F4 j eq_refl) as Ij; f_equal.
      clear -P L I Ij; induction P as [|a x l ys E H IH]; [destruct I|].
      pose proof (parse_attr_ok a x E) as (_ & _ & D & _).
      destruct (parsed_facts _ _ H) as (G1 & _).
      assert (Z : forall k, In (Attr id_path (MList [NPath (Path false [k])])) l -> (1 <= List.length (filter is_ident ys))%nat).
      { intros k K; rewrite G1; apply count_occ_In with (eq_dec := path_dec); apply in_map with (f := at_path) in K; auto. }
      simpl in L; destruct I as [I|I], Ij as [Ij|Ij].
      * congruence.
      * rewrite (proj2 D) in L by (rewrite I; auto); simpl in L; pose proof (Z _ Ij); lia.
      * rewrite (proj2 D) in L by (rewrite Ij; auto); simpl in L; pose proof (Z _ I); lia.
      * apply IH; auto; destruct (is_ident x); simpl in L; lia.
    + exfalso; apply F3; auto; apply in_map with (f := at_path) in I; auto.
  - intro X; rewrite X in B; auto.
  - intro X; rewrite X in B; apply cache_ty_ok in B as (q & l & args & tr & rest & segs & T & -> & A).
    apply args_ok in A as (-> & A); exists q, l, args, rest, segs; split; auto; split; auto.
    destruct A as [A|[A _]]; auto.
Qed.

(** Whole structs. *)
Lemma struct_accepted d :
  (exists fs, derive_context d = Ok fs) <->
  exists l, d = DStruct l /\ forall f, In f l -> described f /\ single_paths f /\ cache_type_ok f.
Proof.
  assert (X : forall l, (exists cs, extract_fields l = Ok cs) <-> forall f, In f l -> exists c, parse_field f = Ok c).
  { induction l as [|f l IH]; simpl; split.
    - intros _ f [].
    - eauto.
    - intros [cs H]; destruct (parse_field f) as [c|e| |] eqn:P; try discriminate; simpl in H.
      destruct (extract_fields l) as [cl|e| |]; try discriminate.
      intros g [<-|I]; eauto; apply IH; eauto.
    - intro H; destruct (H f (or_introl eq_refl)) as [c ->]; simpl.
      destruct (proj2 IH) as [cs ->]; [auto|simpl; eauto]. }
  destruct d as [l|]; simpl; split.
  - intros [fs H]; exists l; split; auto; intros f I; apply field_accepted.
    apply (proj1 (X l)); auto; destruct (extract_fields l); try discriminate; eauto.
  - intros (l' & E & H); injection E as <-; destruct (proj2 (X l)) as [cs ->]; simpl; eauto.
    intros f I; apply field_accepted; auto.
  - intros [fs H]; discriminate.
  - intros (l & E & _); discriminate.
Qed.

(** Impls are generated for the fields with an identifier, in their order. *)
Lemma struct_impls l fs : derive_context (DStruct l) = Ok fs ->
  Forall2 (fun f cf => parse_field f = Ok cf) (filter identified l) fs.
Proof.
  simpl; destruct (extract_fields l) as [cs|e| |] eqn:E; try discriminate; simpl; intro H; injection H as <-.
  revert cs E; induction l as [|f l IH]; intros cs E; simpl in E.
  - injection E as <-; constructor.
  - destruct (parse_field f) as [c|e| |] eqn:P; try discriminate; simpl in E.
    destruct (extract_fields l) as [cl|e| |]; try discriminate; injection E as <-; simpl.
    assert (I : identified f = match cf_ident c with Some _ => true | None => false end).
    { destruct (field_result f c P) as (_ & _ & _ & Id & _); unfold identified.
      destruct (in_dec path_dec id_path (map at_path (fd_attrs f))) as [I|I].
      - assert (A : described f) by (apply field_accepted; eauto).
        apply in_map_iff in I as (a & Q & I); destruct (de_id f A a I Q) as [i M].
        destruct a as [p m]; simpl in Q, M; subst; apply Id in I; rewrite I; auto.
      - destruct (cf_ident c) as [i|] eqn:C; auto; destruct I.
        apply (in_map at_path) with (x := Attr id_path (MList [NPath (Path false [i])])), Id; auto. }
    rewrite I; destruct (cf_ident c); auto.
Qed.

(** * ctx_type! *)
Lemma normalise_accepts r : (exists f, normalise r = Some f) <-> rf_modifier r = None \/ rf_modifier r = Some "cache".
Proof.
  unfold normalise; destruct (rf_modifier r) as [m|]; split.
  - destruct (String.eqb_spec m "cache"); [subst; auto|intros [f H]; discriminate].
  - intros [H|H]; [discriminate|injection H as ->; simpl; eauto].
  - auto.
  - eauto.
Qed.

(** The struct emitted by [ctx_type!] is accepted by the derive, field by field. *)
Lemma emitted_accepted r f : normalise r = Some f -> parse_field (emit_field f) = Ok f.
Proof.
  unfold normalise; destruct (rf_modifier r) as [m|]; [destruct (String.eqb m "cache"); [|discriminate]|];
    intro H; injection H as <-; reflexivity.
Qed.

Lemma parse_raw_ok ts r rest : parse_raw ts = Some (r, rest) <-> exists h, field_tokens r h /\ ts = (h ++ rest)%list.
Proof.
  split.
  - destruct ts as [|[a| | |] ts]; try discriminate.
    destruct ts as [|[b| | |] ts]; try discriminate.
    + destruct ts as [|[|  | |] ts]; try discriminate; destruct ts as [|[i| | |] ts]; try discriminate.
      intro H; injection H as <- <-; eexists; split; [constructor|reflexivity].
    + destruct ts as [|[i| | |] ts]; try discriminate; intro H; injection H as <- <-.
      eexists; split; [constructor|reflexivity].
  - intros (h & H & ->); inversion H; reflexivity.
Qed.

Lemma tokens_cons r h : field_tokens r h -> exists t h', h = t :: h'.
Proof. intro H; inversion H; eauto. Qed.

Lemma parse_raws_list ts rs fuel : List.length ts <= fuel -> (parse_raws fuel ts = Some rs <-> field_list rs ts).
Proof.
  intro L; split.
  - clear L; revert ts rs; induction fuel as [|k IH]; intros ts rs H.
    + destruct ts; [injection H as <-; constructor|discriminate].
    + destruct ts as [|t ts]; [injection H as <-; constructor|].
      cbn [parse_raws] in H; destruct (parse_raw (t :: ts)) as [[r rest]|] eqn:P; [|discriminate].
      apply parse_raw_ok in P as (h & Hh & ->).
      destruct rest as [|[s| | |] rest]; try discriminate.
      * injection H as <-; rewrite app_nil_r; constructor; auto.
      * destruct (parse_raws k rest) as [l|] eqn:Q; [|discriminate]; injection H as <-.
        constructor; auto.
  - intro H; revert fuel L; induction H as [|r h Hh|r h rs rest Hh H IH]; intros k L.
    + destruct k; auto.
    + destruct (tokens_cons _ _ Hh) as (t & h' & ->); destruct k; [simpl in L; lia|]; cbn [parse_raws].
      rewrite (proj2 (parse_raw_ok (t :: h') r [])) by (exists (t :: h'); rewrite app_nil_r; auto); auto.
    + destruct (tokens_cons _ _ Hh) as (t & h' & ->); destruct k; [simpl in L; lia|].
      replace ((t :: h') ++ KComma :: rest)%list with (t :: (h' ++ KComma :: rest))%list by auto.
      cbn [parse_raws].
      rewrite (proj2 (parse_raw_ok _ r (KComma :: rest)))
        by (exists (t :: h'); split; auto).
      rewrite IH; auto; rewrite app_length in L; simpl in L; lia.
Qed.

Lemma ctx_type_ok ts d : ctx_type ts = Some d <->
  exists rs fs, field_list rs ts /\ Forall2 (fun r f => normalise r = Some f) rs fs /\
                d = DStruct (map emit_field fs).
Proof.
  assert (X : forall rs, match map normalise rs with fields =>
     (forallb (fun o => match o with Some _ => true | None => false end) fields = true ->
      exists fs, Forall2 (fun r f => normalise r = Some f) rs fs /\
      flat_map (fun o => match o with Some f => [emit_field f] | None => [] end) fields = map emit_field fs) /\
     (forall fs, Forall2 (fun r f => normalise r = Some f) rs fs ->
      forallb (fun o => match o with Some _ => true | None => false end) fields = true /\
      flat_map (fun o => match o with Some f => [emit_field f] | None => [] end) fields = map emit_field fs) end).
  { induction rs as [|r rs [I1 I2]]; cbv zeta beta in *; simpl; split.
    - exists []; auto.
    - intros fs H; inversion H; auto.
    - intro H; apply andb_true_iff in H as [H1 H2]; destruct (I1 H2) as (fs & Q & E).
      destruct (normalise r) as [f|] eqn:N; [|discriminate]; exists (f :: fs); split; [constructor; auto|].
      simpl; rewrite E; auto.
    - intros fs H; inversion H as [|? f ? fs' N Q]; subst; rewrite N; destruct (I2 fs' Q) as [-> ->]; auto. }
  unfold ctx_type; split.
  - destruct (parse_raws (List.length ts) ts) as [rs|] eqn:P; [|discriminate].
    apply parse_raws_list in P; auto; intro H.
    destruct (forallb _ (map normalise rs)) eqn:Q in H; [|discriminate]; injection H as <-.
    destruct (X rs) as [X1 _]; destruct (X1 Q) as (fs & G & ->); exists rs, fs; auto.
  - intros (rs & fs & L & G & ->); apply (parse_raws_list _ _ (List.length ts)) in L; auto; rewrite L.
    destruct (X rs) as [_ X2]; destruct (X2 fs G) as [-> ->]; auto.
Qed.

(** What [ctx_type!] accepts. *)
Lemma ctx_type_accepted ts :
  (exists d, ctx_type ts = Some d) <-> exists rs, field_list rs ts /\ forall r, In r rs -> known_modifier r.
Proof.
  split.
  - intros [d H]; apply ctx_type_ok in H as (rs & fs & L & G & _); exists rs; split; auto.
    clear -G; induction G as [|r f rs fs N G IH]; [intros r []|]; intros x [<-|I]; auto.
    apply normalise_accepts; eauto.
  - intros (rs & L & K).
    assert (G : exists fs, Forall2 (fun r f => normalise r = Some f) rs fs).
    { clear L; induction rs as [|r rs IH]; [exists []; constructor|].
      destruct IH as [fs G]; [intros; apply K; simpl; auto|].
      destruct (proj2 (normalise_accepts r)) as [f N]; [apply K; simpl; auto|].
      exists (f :: fs); constructor; auto. }
    destruct G as [fs G]; eexists; apply ctx_type_ok; eauto.
Qed.

(** The derive accepts the struct that [ctx_type!] emits, with the fields as they were written. *)
Lemma normalise_describes r f : normalise r = Some f -> describes r f.
Proof.
  unfold normalise, describes; destruct (rf_modifier r) as [m|].
  - destruct (String.eqb_spec m "cache"); [|discriminate]; intro H; injection H as <-; subst m; simpl.
    repeat split; auto.
  - intro H; injection H as <-; simpl; repeat split; auto; discriminate.
Qed.

Lemma ctx_type_derive ts d : ctx_type ts = Some d ->
  exists rs fs, field_list rs ts /\ derive_context d = Ok fs /\ Forall2 describes rs fs.
Proof.
  intro H; apply ctx_type_ok in H as (rs & fs & L & G & ->); exists rs, fs; split; auto; split.
  - simpl; assert (E : extract_fields (map emit_field fs) = Ok fs).
    { clear L; induction G as [|r f rs fs N G IH]; auto; simpl.
      rewrite (emitted_accepted r f N); simpl; rewrite IH; auto. }
    rewrite E; simpl; f_equal; clear -G; induction G as [|r f rs fs N G IH]; auto; simpl.
    destruct (normalise_describes _ _ N) as (_ & -> & _); rewrite IH; auto.
  - clear L; induction G as [|r f rs fs N G IH]; constructor; auto; apply normalise_describes; auto.
Qed.

(** * Reads and writes *)
Section Contexts.
Context {F : Type} {S : Scalar F}.
Implicit Types (st : struct_val F) (fs : list ctx_field) (v : value F).

Lemma impl_in fs i f : impl_for fs i = Some f -> In f fs /\ cf_ident f = Some i.
Proof.
  unfold impl_for; intro H; apply find_some in H as [I E]; split; auto.
  destruct (cf_ident f); [|discriminate]; apply String.eqb_eq in E; congruence.
Qed.
Lemma impl_found fs st i f : compiled fs st -> In f fs -> cf_ident f = Some i -> impl_for fs i = Some f.
Proof.
  intros C I E; destruct (impl_for fs i) as [g|] eqn:G.
  - apply impl_in in G as [J K]; f_equal; apply (co_ids _ _ C g f i); auto.
  - unfold impl_for in G; apply (find_none _ _ G) in I; rewrite E, String.eqb_refl in I; discriminate.
Qed.
Lemma same_name fs st f g : compiled fs st -> In f fs -> In g fs -> cf_name f = cf_name g -> f = g.
Proof.
  intros C; generalize (co_names _ _ C); clear C.
  induction fs as [|h fs IH]; simpl; intros N I J E; [destruct I|]; inversion N as [|? ? N1 N2]; subst.
  destruct I as [<-|I], J as [<-|J]; auto.
  - destruct N1; rewrite E; apply in_map; auto.
  - destruct N1; rewrite <- E; apply in_map; auto.
Qed.

(** Content of the field behind an identifier. *)
Lemma read_plain fs st f i v : compiled fs st -> In f fs -> cf_ident f = Some i -> cf_cache f = false ->
  st (cf_name f) = Plain v -> gen_read fs st i = Some v.
Proof.
  intros C I E K V; unfold gen_read, gen_read_spec; rewrite (impl_found _ _ _ _ C I E), K, V; auto.
Qed.
Lemma read_cell fs st f i o : compiled fs st -> In f fs -> cf_ident f = Some i -> cf_cache f = true ->
  st (cf_name f) = Cell o -> gen_read fs st i = o.
Proof.
  intros C I E K V; unfold gen_read, gen_read_spec; rewrite (impl_found _ _ _ _ C I E), K, V; destruct o; auto.
Qed.

Lemma write_compiled fs st i v : compiled fs st -> compiled fs (gen_write fs st i v).
Proof.
  intros [N D T]; constructor; auto; intros f I; unfold gen_write.
  destruct (impl_for fs i) as [g|] eqn:G; [|apply T; auto].
  apply impl_in in G as [J _]; destruct (String.eqb_spec (cf_name f) (cf_name g)) as [E|E]; [|apply T; auto].
  rewrite (same_name fs st f g (Build_compiled _ _ _ N D T) I J E); destruct (cf_cache g); eauto.
Qed.

Lemma read_write fs st i v : compiled fs st -> (exists f, In f fs /\ cf_ident f = Some i) ->
  gen_read fs (gen_write fs st i v) i = Some v.
Proof.
  intros C (f & I & E); pose proof (write_compiled fs st i v C) as C'.
  destruct (cf_cache f) eqn:K.
  - apply (read_cell _ _ f i (Some v) C'); auto.
    unfold gen_write; rewrite (impl_found _ _ _ _ C I E), String.eqb_refl, K; auto.
  - apply (read_plain _ _ f i v C'); auto.
    unfold gen_write; rewrite (impl_found _ _ _ _ C I E), String.eqb_refl, K; auto.
Qed.

Lemma read_other fs st i j v : compiled fs st -> i <> j ->
  gen_read_spec fs (gen_write fs st i v) j = gen_read_spec fs st j /\
  gen_read fs (gen_write fs st i v) j = gen_read fs st j /\
  gen_read_shape fs (gen_write fs st i v) j = gen_read_shape fs st j.
Proof.
  intros C N; unfold gen_read, gen_read_spec, gen_read_shape, gen_write.
  destruct (impl_for fs j) as [g|] eqn:G; auto; apply impl_in in G as [J K].
  destruct (impl_for fs i) as [f|] eqn:X; auto; apply impl_in in X as [I L].
  destruct (String.eqb_spec (cf_name g) (cf_name f)) as [E|E]; auto.
  rewrite (same_name fs st g f C J I E) in K; congruence.
Qed.

Lemma read_views fs st i :
  gen_read fs st i = option_map unwrap (gen_read_spec fs st i) /\
  gen_read_shape fs st i = option_map (@vshape F) (gen_read fs st i).
Proof.
  split; auto; unfold gen_read, gen_read_spec, gen_read_shape.
  destruct (impl_for fs i) as [f|]; auto; destruct (cf_cache f), (st (cf_name f)) as [v|[v|]]; auto.
Qed.

Lemma run_compiled fs st ws : compiled fs st -> compiled fs (run_writes fs st ws).
Proof.
  unfold run_writes; revert st; induction ws as [|[j v] ws IH]; intros st C; simpl; auto.
  apply IH, write_compiled; auto.
Qed.

(** Any history of writes. *)
Lemma read_history fs st ws i : compiled fs st -> (exists f, In f fs /\ cf_ident f = Some i) ->
  gen_read fs (run_writes fs st ws) i =
  match last_write ws i with Some v => Some v | None => gen_read fs st i end.
Proof.
  unfold run_writes; revert st; induction ws as [|[j v] ws IH]; intros st C I; simpl; auto.
  rewrite IH; auto; [|apply write_compiled; auto].
  destruct (last_write ws i); auto; destruct (String.eqb_spec j i) as [->|N].
  - apply read_write; auto.
  - apply read_other; auto.
Qed.

Lemma last_write_none {V} (ws : list (string * V)) i : last_write ws i = None <-> ~ In i (map fst ws).
Proof.
  induction ws as [|[j v] ws IH]; simpl; [tauto|].
  destruct (last_write ws i).
  - split; [discriminate|]; intro N; exfalso; assert (Some v0 = None) by (apply IH; tauto); discriminate.
  - destruct (String.eqb_spec j i); split; try discriminate; try tauto.
Qed.

(** When reads are defined. *)
Lemma plain_defined fs st ws f i : compiled fs st -> In f fs -> cf_ident f = Some i -> cf_cache f = false ->
  exists v, gen_read fs (run_writes fs st ws) i = Some v.
Proof.
  intros C I E K; apply (run_compiled fs st ws) in C.
  pose proof (co_slots _ _ C f I) as T; rewrite K in T; destruct T as [v T]; exists v.
  apply (read_plain _ _ f i v C); auto.
Qed.
Lemma cache_defined fs st ws f i : compiled fs st -> In f fs -> cf_ident f = Some i -> cf_cache f = true ->
  st (cf_name f) = Cell None ->
  ((exists v, gen_read fs (run_writes fs st ws) i = Some v) <-> In i (map fst ws)).
Proof.
  intros C I E K V; rewrite read_history by eauto.
  rewrite (read_cell fs st f i None) by auto.
  destruct (last_write ws i) as [w|] eqn:L.
  - split; eauto; intros _; destruct (in_dec string_dec i (map fst ws)) as [J|J]; auto.
    apply last_write_none in J; congruence.
  - apply last_write_none in L; split; [intros [v X]; discriminate|tauto].
Qed.

(** The generated reads and writes are those of the contexts of Eval.v. *)
Lemma ctx_of_write name fs st (i : ident) v : compiled fs st ->
  (forall a b, name a = name b -> a = b) -> (exists f, In f fs /\ cf_ident f = Some (name i)) ->
  forall j, ctx_of name fs (gen_write fs st (name i) v) j = write (ctx_of name fs st) i v j.
Proof.
  intros C N I j; unfold ctx_of, write; unfold ident_eqb; destruct (Nat.eqb_spec i j) as [<-|D].
  - apply read_write; auto.
  - apply read_other; auto.
Qed.

(** Writing a specification stores the buffer it stands for. *)
Lemma read_write_spec fs st i s : compiled fs st -> spec_wf s ->
  (exists f, In f fs /\ cf_ident f = Some i) ->
  exists v, gen_read fs (gen_write_spec fs st i s) i = Some v /\ vwf v /\ bty_of v = spec_bty s /\
            holds v (tensor_of_spec s).
Proof.
  intros C W I; exists (unwrap s); unfold gen_write_spec; rewrite read_write by auto.
  split; [auto|split; [apply unwrap_wf; auto|split; [apply unwrap_bty|]]].
  apply holds_unwrap; auto; destruct s; split; try reflexivity; intros; reflexivity.
Qed.

Lemma ctx_of_write_spec name fs st (i : ident) s : compiled fs st ->
  (forall a b, name a = name b -> a = b) -> (exists f, In f fs /\ cf_ident f = Some (name i)) ->
  forall j, ctx_of name fs (gen_write_spec fs st (name i) s) j = write_spec (ctx_of name fs st) i s j.
Proof. intros; apply ctx_of_write; auto. Qed.
End Contexts.
