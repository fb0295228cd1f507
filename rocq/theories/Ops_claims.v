(** [derive(Contains)] and [ctx!]. *)
From Coq Require Import List Arith Bool String Ascii Lia.
Import ListNotations.
From Verif Require Import Base Shapes Scalar Buffers Spec Node Eval Ids Derive Compile Ops_derive
  Vocab Math Macro_math Derive_claims.
Local Open Scope string_scope.

(** * derive(Contains) *)

Lemma get_ident_op p :
  (match get_ident p with Some s => String.eqb s "op" | None => false end) = true <-> p = op_path.
Proof.
  unfold get_ident, op_path; destruct p as [[] [|s [|s' l]]]; cbn; split; try discriminate.
  - intro H; apply String.eqb_eq in H; subst; reflexivity.
  - intro H; injection H as ->; reflexivity.
Qed.

Lemma op_count f :
  List.length (filter (fun a => match get_ident (at_path a) with Some s => String.eqb s "op" | None => false end)
                      (fd_attrs f)) = count_occ path_dec (map at_path (fd_attrs f)) op_path.
Proof.
  induction (fd_attrs f) as [|a l IH]; [reflexivity|]; cbn [filter map count_occ].
  destruct (path_dec (at_path a) op_path) as [E|E].
  - rewrite (proj2 (get_ident_op _) E); cbn [List.length]; congruence.
  - destruct (match get_ident (at_path a) with Some s => String.eqb s "op" | None => false end) eqn:G; auto.
    apply get_ident_op in G; contradiction.
Qed.

Lemma op_attributes_ok f : op_attributes f = Ok tt <-> one_op f.
Proof.
  unfold op_attributes, one_op; rewrite op_count.
  destruct (Nat.eqb_spec (count_occ path_dec (map at_path (fd_attrs f)) op_path) 1); split; congruence.
Qed.

Lemma op_attributes_cases f : op_attributes f = Ok tt \/ op_attributes f = Err OpParseError.
Proof.
  unfold op_attributes; match goal with |- context [if ?b then _ else _] => destruct b end; auto.
Qed.

Lemma named_ok l : Forall one_op l <-> exists fs, named_fields l = Ok fs.
Proof.
  induction l as [|f l IH]; cbn [named_fields]; [split; [intros _; exists []; reflexivity|constructor]|]; split.
  - intro H; inversion H as [|? ? Hf Hl]; subst; rewrite (proj2 (op_attributes_ok f) Hf); cbn [res_bind].
    destruct (proj1 IH Hl) as [fs ->]; cbn; eauto.
  - intros [fs E]; destruct (op_attributes_cases f) as [G|G]; rewrite G in E; [|discriminate E].
    cbn [res_bind] in E; destruct (named_fields l) as [fs'| | |]; try discriminate E.
    constructor; [apply op_attributes_ok, G|apply IH; eauto].
Qed.
Lemma unnamed_ok l : forall i, Forall one_op l <-> exists fs, unnamed_fields i l = Ok fs.
Proof.
  induction l as [|f l IH]; intro i; cbn [unnamed_fields]; [split; [intros _; exists []; reflexivity|constructor]|]; split.
  - intro H; inversion H as [|? ? Hf Hl]; subst; rewrite (proj2 (op_attributes_ok f) Hf); cbn [res_bind].
    destruct (proj1 (IH (S i)) Hl) as [fs ->]; cbn; eauto.
  - intros [fs E]; destruct (op_attributes_cases f) as [G|G]; rewrite G in E; [|discriminate E].
    cbn [res_bind] in E; destruct (unnamed_fields (S i) l) as [fs'| | |] eqn:U; try discriminate E.
    constructor; [apply op_attributes_ok, G|apply (IH (S i)); eauto].
Qed.

Lemma named_fs l : forall fs, named_fields l = Ok fs ->
  fs = map (fun f => OpField (fd_ty f) (AccName (match fd_name f with Some s => s | None => "" end))) l.
Proof.
  induction l as [|f l IH]; intros fs E; cbn [named_fields] in E; [injection E as <-; reflexivity|].
  destruct (op_attributes_cases f) as [G|G]; rewrite G in E; [|discriminate E]; cbn [res_bind] in E.
  destruct (named_fields l) as [fs'| | |]; try discriminate E; injection E as <-; cbn [map]; f_equal; auto.
Qed.
Lemma unnamed_fs l : forall i fs, unnamed_fields i l = Ok fs ->
  map of_ty fs = map fd_ty l /\ map of_acc fs = map AccIndex (seq i (List.length l)).
Proof.
  induction l as [|f l IH]; intros i fs E; cbn [unnamed_fields] in E; [injection E as <-; auto|].
  destruct (op_attributes_cases f) as [G|G]; rewrite G in E; [|discriminate E]; cbn [res_bind] in E.
  destruct (unnamed_fields (S i) l) as [fs'| | |] eqn:U; try discriminate E; injection E as <-.
  destruct (IH _ _ U) as [A B]; cbn [map List.length seq of_ty of_acc]; rewrite A, B; auto.
Qed.

(** Names of named fields are never missing in Rust. *)
Lemma contains_accepted ps d :
  (exists i, expand_contains ps d = Ok i) <->
  exists l, (d = ONamed l \/ d = OUnnamed l) /\ Forall one_op l.
Proof.
  unfold expand_contains; destruct d as [l|l| | |]; cbn [op_fields]; split;
    try (intros [i E]; discriminate E);
    try (intros [l' [[E|E] _]]; discriminate E).
  - intros [i E]; exists l; split; auto; apply named_ok; destruct (named_fields l); try discriminate E; eauto.
  - intros [l' [[E|E] H]]; [injection E as <-|discriminate E]; apply named_ok in H as [fs ->]; eauto.
  - intros [i E]; exists l; split; auto; apply (unnamed_ok l 0); destruct (unnamed_fields 0 l); try discriminate E; eauto.
  - intros [l' [[E|E] H]]; [discriminate E|injection E as <-]; apply (unnamed_ok l 0) in H as [fs ->]; eauto.
Qed.

Lemma contains_rejected ps d :
  (forall i, expand_contains ps d <> Ok i) -> expand_contains ps d = Panic.
Proof.
  unfold expand_contains; destruct d as [l|l| | |]; cbn [op_fields]; auto; intro H.
  - destruct (named_fields l) as [fs| | |] eqn:E; auto; [exfalso; eapply H; reflexivity|].
    exfalso; clear H; induction l as [|f l IH]; [discriminate E|]; cbn [named_fields] in E.
    destruct (op_attributes_cases f) as [G|G]; rewrite G in E; [|discriminate E]; cbn [res_bind] in E.
    destruct (named_fields l); try discriminate E; auto.
  - destruct (unnamed_fields 0 l) as [fs| | |] eqn:E; auto; [exfalso; eapply H; reflexivity|].
    exfalso; clear H; revert E; generalize 0; induction l as [|f l IH]; intros i E; [discriminate E|].
    cbn [unnamed_fields] in E.
    destruct (op_attributes_cases f) as [G|G]; rewrite G in E; [|discriminate E]; cbn [res_bind] in E.
    destruct (unnamed_fields (S i) l) eqn:U; try discriminate E; eapply IH; eauto.
Qed.

Lemma contains_named ps l i : expand_contains ps (ONamed l) = Ok i ->
  (forall f, In f l -> fd_name f <> None) ->
  ci_params i = (ps ++ ["I"])%list /\ ci_bounds i = map fd_ty l /\
  map Some (ci_calls i) = map (fun f => option_map AccName (fd_name f)) l.
Proof.
  unfold expand_contains; cbn [op_fields]; destruct (named_fields l) as [fs| | |] eqn:E; intro H; try discriminate H.
  injection H as <-; intro N; apply named_fs in E; subst fs; cbn [ci_params ci_bounds ci_calls].
  split; [reflexivity|split; [rewrite map_map; reflexivity|]].
  rewrite !map_map; apply map_ext_in; intros f Hf; cbn [of_acc]; specialize (N f Hf).
  destruct (fd_name f); [reflexivity|contradiction].
Qed.
Lemma contains_unnamed ps l i : expand_contains ps (OUnnamed l) = Ok i ->
  ci_params i = (ps ++ ["I"])%list /\ ci_bounds i = map fd_ty l /\
  ci_calls i = map AccIndex (seq 0 (List.length l)).
Proof.
  unfold expand_contains; cbn [op_fields]; destruct (unnamed_fields 0 l) as [fs| | |] eqn:E; intro H; try discriminate H.
  injection H as <-; apply unnamed_fs in E as [A B]; cbn [ci_params ci_bounds ci_calls]; auto.
Qed.

Lemma orb_fold (field : accessor -> bool) r : forall b,
  fold_left (fun b a' => b || field a') r b = true <-> b = true \/ exists a, In a r /\ field a = true.
Proof.
  induction r as [|a r IH]; intro b; cbn [fold_left].
  - split; auto; intros [H|[a [[] _]]]; auto.
  - rewrite IH, orb_true_iff; split.
    + intros [[H|H]|[a' [H1 H2]]]; [auto| |]; right; [exists a|exists a']; simpl; auto.
    + intros [H|[a' [[->|H1] H2]]]; auto; right; eauto.
Qed.

Lemma contains_runs i field :
  (ci_calls i <> [] <-> exists b, run_contains i field = Some b) /\
  (forall b, run_contains i field = Some b -> (b = true <-> exists a, In a (ci_calls i) /\ field a = true)).
Proof.
  unfold run_contains; destruct (ci_calls i) as [|a r]; split.
  - split; [intro H; contradiction H; reflexivity|intros [b H]; discriminate H].
  - intros b H; discriminate H.
  - split; eauto; intros _ H; discriminate H.
  - intros b H; injection H as <-; rewrite orb_fold; split.
    + intros [H|[a' [H1 H2]]]; [exists a|exists a']; simpl; auto.
    + intros [a' [[->|H1] H2]]; auto; right; eauto.
Qed.

Lemma contains_operators {F} (n : node F) ps d t : declaration n = Some (ps, d) ->
  exists i, expand_contains ps d = Ok i /\ NoDup (ci_params i) /\
    List.length (ci_params i) = List.length (ci_calls i) + match n with Contract _ _ _ => 2 | _ => 1 end /\
    (forall a, In a (ci_calls i) -> operand_at n a <> None) /\
    run_contains i (fun a => match operand_at n a with Some m => contains m t | None => false end) =
    Some (contains n t).
Proof.
  destruct n; cbn [declaration]; intro H; try discriminate H; injection H as <- <-;
    (eexists; split; [reflexivity|split; [repeat constructor; simpl; intuition discriminate|split; [reflexivity|split; [|reflexivity]]]]);
    cbn; intros a K; repeat (destruct K as [<-|K]); try contradiction; discriminate.
Qed.

(** * ctx! *)

Definition raw_of (k : string) : raw_field := RawField None (key_field k) k.

Lemma ctx_tokens_list keys : field_list (map raw_of keys) (ctx_tokens keys).
Proof.
  induction keys as [|k keys IH]; [constructor|].
  destruct keys as [|k' keys]; [constructor; constructor|].
  change (ctx_tokens (k :: k' :: keys))
    with ([KIdent (key_field k); KColon; KIdent k] ++ KComma :: ctx_tokens (k' :: keys))%list.
  cbn [map]; constructor; [constructor|exact IH].
Qed.

Lemma ctx_tokens_parse keys : forall n, (List.length (ctx_tokens keys) <= n) ->
  parse_raws n (ctx_tokens keys) = Some (map raw_of keys).
Proof.
  induction keys as [|k keys IH]; intros n L; [destruct n; reflexivity|].
  destruct keys as [|k' keys].
  - destruct n; [cbn in L; lia|reflexivity].
  - destruct n; [cbn in L; lia|].
    change (ctx_tokens (k :: k' :: keys))
      with (KIdent (key_field k) :: KColon :: KIdent k :: KComma :: ctx_tokens (k' :: keys)) in *.
    cbn [parse_raws parse_raw]; cbn [List.length] in L; rewrite IH by lia; reflexivity.
Qed.

Definition key_ctx (k : string) : ctx_field :=
  let bty := TyPath false false [Seg ("__" ++ k) ANone] in CtxField (key_field k) bty bty (Some k) false.

Lemma ctx_macro_data keys : keys <> [] ->
  ctx_macro keys = Some (DStruct (map (fun k => emit_field (key_ctx k)) keys)).
Proof.
  intro N; unfold ctx_macro; destruct keys as [|k0 keys0] eqn:E; [contradiction N; reflexivity|]; rewrite <- E.
  clear; unfold ctx_type; rewrite ctx_tokens_parse by lia; rewrite map_map.
  replace (forallb _ _) with true.
  - do 2 f_equal; induction keys as [|k keys IH]; [reflexivity|]; cbn [map flat_map]; rewrite IH; reflexivity.
  - symmetry; induction keys as [|k keys IH]; [reflexivity|]; cbn [map forallb]; rewrite IH; reflexivity.
Qed.

Lemma key_field_parse k : parse_field (emit_field (key_ctx k)) = Ok (key_ctx k).
Proof. reflexivity. Qed.

Lemma ctx_macro_derive keys :
  derive_context (DStruct (map (fun k => emit_field (key_ctx k)) keys)) = Ok (map key_ctx keys).
Proof.
  cbn [derive_context].
  assert (H : extract_fields (map (fun k => emit_field (key_ctx k)) keys) = Ok (map key_ctx keys)).
  { induction keys as [|k keys IH]; [reflexivity|]; cbn [map extract_fields].
    rewrite key_field_parse; cbn [res_unwrap res_bind]; rewrite IH; reflexivity. }
  rewrite H; cbn [res_map]; f_equal; clear; induction keys as [|k keys IH]; [reflexivity|].
  cbn [map filter key_ctx cf_ident]; f_equal; exact IH.
Qed.

Lemma ctx_macro_accepted keys : keys <> [] ->
  exists d fs, ctx_macro keys = Some d /\ derive_context d = Ok fs /\
    Forall2 (fun k f => cf_name f = "_" ++ lower k /\ cf_ident f = Some k /\ cf_cache f = false) keys fs.
Proof.
  intro N; exists (DStruct (map (fun k => emit_field (key_ctx k)) keys)), (map key_ctx keys).
  split; [apply ctx_macro_data, N|split; [apply ctx_macro_derive|]].
  clear; induction keys as [|k keys IH]; constructor; auto.
Qed.

Lemma key_field_inj a b : key_field a = key_field b <-> lower a = lower b.
Proof. unfold key_field; split; [intro H; injection H; auto|intros ->; reflexivity]. Qed.

Lemma nodup_names keys : NoDup (map cf_name (map key_ctx keys)) <-> NoDup (map lower keys).
Proof.
  rewrite map_map; cbn [key_ctx cf_name].
  assert (H : forall k l, In (key_field k) (map key_field l) <-> In (lower k) (map lower l)).
  { intros k l; rewrite !in_map_iff; split; intros (x & E & Hx); exists x; split; auto; apply key_field_inj; auto. }
  induction keys as [|k keys IH]; [split; constructor|]; cbn [map].
  rewrite !NoDup_cons_iff, IH; split; intros [A B]; split; auto; intro C; apply A, H, C.
Qed.

Lemma find_lower {V} (kvs : list (string * V)) k v :
  NoDup (map lower (map fst kvs)) -> In (k, v) kvs ->
  find (fun kv => String.eqb (key_field (fst kv)) (key_field k)) kvs = Some (k, v).
Proof.
  induction kvs as [|[k' v'] kvs IH]; intros N []; cbn [map fst] in N; apply NoDup_cons_iff in N as [A B]; cbn [find fst].
  - injection H as -> ->; rewrite String.eqb_refl; reflexivity.
  - destruct (String.eqb_spec (key_field k') (key_field k)) as [E|E].
    + exfalso; apply A; apply key_field_inj in E; rewrite E; apply (in_map lower), (in_map fst _ _ H).
    + apply IH; auto.
Qed.

Lemma ctx_compiled {F} (kvs : list (string * value F)) fs d :
  ctx_macro (map fst kvs) = Some d -> derive_context d = Ok fs ->
  (compiled fs (ctx_literal kvs) <-> NoDup (map lower (map fst kvs))).
Proof.
  intros M D; set (keys := map fst kvs) in *.
  assert (N : keys <> []) by (intro E; rewrite E in M; discriminate M).
  rewrite (ctx_macro_data keys N) in M; injection M as <-; rewrite ctx_macro_derive in D; injection D as <-.
  split; [intros [H _ _]; apply nodup_names, H|intro H; constructor].
  - apply nodup_names, H.
  - intros f g i Hf Hg; apply in_map_iff in Hf as (a & <- & _); apply in_map_iff in Hg as (b & <- & _).
    cbn [key_ctx cf_ident]; intros E1 E2; congruence.
  - intros f Hf; apply in_map_iff in Hf as (a & <- & Ha); cbn [key_ctx cf_cache cf_name].
    apply in_map_iff in Ha as ([k v] & <- & Hk); cbn [fst]; exists v; unfold ctx_literal.
    rewrite (find_lower kvs k v H Hk); reflexivity.
Qed.

Lemma impl_keys keys i :
  impl_for (map key_ctx keys) i = if in_dec string_dec i keys then Some (key_ctx i) else None.
Proof.
  unfold impl_for; induction keys as [|k keys IH]; [reflexivity|]; cbn [map find key_ctx cf_ident].
  destruct (String.eqb_spec i k) as [->|E].
  - destruct (in_dec string_dec k (k :: keys)) as [_|C]; [reflexivity|contradiction C; left; reflexivity].
  - rewrite IH; destruct (in_dec string_dec i keys) as [A|A], (in_dec string_dec i (k :: keys)) as [B|B]; auto.
    + contradiction B; right; exact A.
    + destruct B as [B|B]; [congruence|contradiction].
Qed.

Lemma ctx_reads {F} {S : Scalar F} (kvs : list (string * value F)) fs d :
  ctx_macro (map fst kvs) = Some d -> derive_context d = Ok fs ->
  NoDup (map lower (map fst kvs)) ->
  (forall k v, In (k, v) kvs -> gen_read fs (ctx_literal kvs) k = Some v) /\
  (forall k, ~ In k (map fst kvs) -> impl_for fs k = None).
Proof.
  intros M D H; set (keys := map fst kvs) in *.
  assert (N : keys <> []) by (intro E; rewrite E in M; discriminate M).
  rewrite (ctx_macro_data keys N) in M; injection M as <-; rewrite ctx_macro_derive in D; injection D as <-.
  split.
  - intros k v Hk; unfold gen_read, gen_read_spec; rewrite impl_keys.
    destruct (in_dec string_dec k keys) as [_|C]; [|contradiction C; apply (in_map fst) in Hk; exact Hk].
    cbn [key_ctx cf_cache cf_name]; unfold ctx_literal; rewrite (find_lower kvs k v H Hk); reflexivity.
  - intros k C; rewrite impl_keys; destruct (in_dec string_dec k keys); [contradiction|reflexivity].
Qed.

Lemma lower_letters s : forall i, String.get i (lower s) = option_map (beside capitals smalls) (String.get i s).
Proof.
  induction s as [|c s IH]; intros [|i]; cbn [lower String.get option_map]; auto.
  f_equal; destruct c as [[] [] [] [] [] [] [] []]; reflexivity.
Qed.
