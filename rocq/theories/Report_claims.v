(** Proofs about the messages of the macros, in the form used by Properties_report.v. *)
From Coq Require Import List Arith Bool String Ascii Lia.
Import ListNotations.
From Verif Require Import Base Shapes Scalar Buffers Spec Eval Ids Derive Ops_derive Compile Report Vocab Math
  Macro_math Report_math Derive_claims Ids_claims Ops_claims Compile_claims.
Local Open Scope string_scope.

(** * Attributes *)
Definition attr_report (a : attr) : report :=
  match parse_attr a with
  | Ok _ => Fine
  | Err e => match field_message e with Some m => Says (unwrap_text m) | None => Foreign end
  | _ => Says none_text
  end.

Lemma attr_report_fault a r : attr_fault a r <-> attr_report a = r /\ r <> Fine.
Proof.
  unfold attr_report, parse_attr; split.
  - intros [H|H M|H M|l H M L|H M|H M|p H M P|H M]; try rewrite H; try rewrite M.
    + destruct (at_path a) as [[] [|x [|y l]]]; simpl; try (split; [reflexivity|discriminate]).
      destruct (H x); reflexivity.
    + split; [reflexivity|discriminate].
    + split; [reflexivity|discriminate].
    + destruct l as [|x [|y l]]; simpl in L; try lia; destruct x; split; [reflexivity|discriminate|reflexivity|discriminate|reflexivity|discriminate].
    + split; [reflexivity|discriminate].
    + split; [reflexivity|discriminate].
    + split; [|discriminate]; destruct p as [[] [|x [|y l]]]; try reflexivity; destruct (P x); reflexivity.
    + split; [reflexivity|discriminate].
  - intros [H N]; destruct (get_ident (at_path a)) as [s|] eqn:G.
    + apply get_ident_some in G.
      destruct (String.eqb_spec s "cache") as [->|N1]; [congruence|].
      destruct (String.eqb_spec s "id") as [->|N2]; [|congruence].
      destruct (at_meta a) as [|l|] eqn:M; simpl in H.
      * subst r; apply af_syntax; auto.
      * destruct l as [|x [|y l]].
        -- subst r; apply af_few; auto.
        -- destruct x as [p| |]; simpl in H.
           ++ destruct (get_ident p) as [i|] eqn:P; simpl in H; [congruence|].
              subst r; eapply af_argument; eauto; intros i ->; discriminate.
           ++ subst r; apply af_form; auto.
           ++ subst r; apply af_literal; auto.
        -- assert (E : r = shown_error "Too many arguments to #[id(.)]") by (destruct x; auto).
           rewrite E; eapply af_many; eauto; simpl; lia.
      * subst r; apply af_other; auto.
    + subst r; apply af_path; intros s E; rewrite E in G; discriminate.
Qed.

Lemma attr_sound a : (forall r, ~ attr_fault a r) <-> exists x, parse_attr a = Ok x.
Proof.
  split.
  - intro H; destruct (parse_attr a) as [x|e| |] eqn:P; [eauto| | |].
    + destruct (H (attr_report a)); apply attr_report_fault; split; auto.
      unfold attr_report; rewrite P; destruct (field_message e); discriminate.
    + destruct (H (attr_report a)); apply attr_report_fault; split; auto; unfold attr_report; rewrite P; discriminate.
    + destruct (H (attr_report a)); apply attr_report_fault; split; auto; unfold attr_report; rewrite P; discriminate.
  - intros [x P] r F; apply attr_report_fault in F as [E N]; unfold attr_report in E; rewrite P in E; auto.
Qed.

Lemma attrs_sound l : sound_attrs l <-> exists xs, Forall2 (fun a x => parse_attr a = Ok x) l xs.
Proof.
  unfold sound_attrs; split.
  - intro H; induction l as [|a l IH]; [exists []; constructor|].
    destruct IH as [xs X]; [intros b r I; apply H; simpl; auto|].
    destruct (proj1 (attr_sound a)) as [x P]; [intro r; apply H; simpl; auto|].
    exists (x :: xs); constructor; auto.
  - intros [xs X]; induction X as [|a x l xs P X IH]; intros b r; [intros []|].
    intros [<-|I]; [apply attr_sound; eauto|apply IH; auto].
Qed.

(** The first fault among the attributes. *)
Lemma attrs_fault l :
  (exists xs, parse_attrs l = Ok xs) \/
  exists l1 a l2 r, l = (l1 ++ a :: l2)%list /\ sound_attrs l1 /\ attr_fault a r /\
    ((exists e, parse_attrs l = Err e /\
       r = match field_message e with Some m => Says (unwrap_text m) | None => Foreign end) \/
     (forall x, parse_attrs l <> Ok x) /\ (forall e, parse_attrs l <> Err e) /\ r = Says none_text).
Proof.
  induction l as [|a l IH]; [left; exists []; reflexivity|].
  destruct (parse_attr a) as [x|e| |] eqn:P.
  - destruct IH as [[xs X]|(l1 & b & l2 & r & -> & S1 & F & D)].
    + left; exists (x :: xs); simpl; rewrite P; simpl; rewrite X; reflexivity.
    + right; exists (a :: l1), b, l2, r; split; auto; split.
      { intros c r' [<-|I]; [apply attr_sound; eauto|apply S1; auto]. }
      split; auto; simpl; rewrite P; simpl.
      destruct D as [(e & E & ->)|(D1 & D2 & ->)].
      * left; exists e; rewrite E; auto.
      * right; destruct (parse_attrs (l1 ++ b :: l2)) as [y|y| |] eqn:Q; simpl;
          [destruct (D1 y); auto|destruct (D2 y); auto| |]; split; try discriminate; split; try discriminate; auto.
  - right; exists [], a, l, (attr_report a); split; auto; split; [intros c r' []|].
    split; [apply attr_report_fault; split; auto; unfold attr_report; rewrite P;
            destruct (field_message e); discriminate|].
    left; exists e; simpl; rewrite P; split; auto; unfold attr_report; rewrite P; auto.
  - right; exists [], a, l, (attr_report a); split; auto; split; [intros c r' []|].
    split; [apply attr_report_fault; split; auto; unfold attr_report; rewrite P; discriminate|].
    right; simpl; rewrite P; simpl; split; [discriminate|split; [discriminate|]];
      unfold attr_report; rewrite P; auto.
  - right; exists [], a, l, (attr_report a); split; auto; split; [intros c r' []|].
    split; [apply attr_report_fault; split; auto; unfold attr_report; rewrite P; discriminate|].
    right; simpl; rewrite P; simpl; split; [discriminate|split; [discriminate|]];
      unfold attr_report; rewrite P; auto.
Qed.

Lemma attr_not_stuck a : parse_attr a <> Stuck.
Proof.
  unfold parse_attr; destruct (get_ident (at_path a)) as [s|]; [|discriminate].
  destruct (String.eqb s "cache"); [discriminate|]; destruct (String.eqb s "id"); [|discriminate].
  destruct (at_meta a) as [|[|[p| |] [|y l]]|]; try discriminate; simpl.
  destruct (get_ident p); discriminate.
Qed.
Lemma attrs_not_stuck l : parse_attrs l <> Stuck.
Proof.
  induction l as [|a l IH]; [discriminate|]; simpl; pose proof (attr_not_stuck a).
  destruct (parse_attr a); simpl; try congruence; destruct (parse_attrs l); simpl; congruence.
Qed.

(** Two different first faults do not exist. *)
Lemma first_fault_eq l1 a l2 m1 b m2 r s :
  (l1 ++ a :: l2 = m1 ++ b :: m2)%list -> sound_attrs l1 -> sound_attrs m1 ->
  attr_fault a r -> attr_fault b s -> a = b.
Proof.
  revert m1; induction l1 as [|x l1 IH]; intros [|y m1] E S1 S2 F G; simpl in E.
  - congruence.
  - injection E as <- _; destruct (S2 a r); simpl; auto.
  - injection E as -> _; destruct (S1 b s); simpl; auto.
  - injection E as -> E; eapply IH; eauto; intros c q I; [apply S1|apply S2]; simpl; auto.
Qed.

(** * Fields *)
Lemma fault_report f r : field_fault f r <-> field_report f = r /\ r <> Fine.
Proof.
  assert (T : forall args tr q l rest, fd_ty f = TyPath q l (Seg "Option" (AAngle args tr) :: rest) ->
            parse_ty_cache (fd_ty f) = res_map (TyPath q l) (args_as_segments args tr)).
  { intros args tr q l rest E; rewrite E; reflexivity. }
  assert (A : forall args tr, ~ path_argument args tr -> @args_as_segments field_error args tr = Panic).
  { intros args tr N; destruct (@args_as_segments field_error args tr) as [segs|e| |] eqn:Q; auto.
    - destruct N; apply args_ok in Q as (-> & [[-> _]|[-> Q]]); split; eauto.
    - destruct args as [|[[[] [] sg|]|] [|y l]], tr; try discriminate; simpl in Q; destruct (forallb plain_seg sg); discriminate.
    - destruct args as [|[[[] [] sg|]|] [|y l]], tr; try discriminate; simpl in Q; destruct (forallb plain_seg sg); discriminate. }
  assert (O : (forall args tr, ~ option_type (fd_ty f) args tr) -> parse_ty_cache (fd_ty f) = Err ImproperCacheType).
  { intro N; destruct (fd_ty f) as [q l [|[n [|args tr|]] rest]|] eqn:E; auto.
    unfold parse_ty_cache; destruct (String.eqb_spec n "Option") as [->|]; auto.
    destruct (N args tr); exists q, l, rest; auto. }
  split.
  - intros [H|l1 a l2 q N E S1 F|N S L|N S L M|N S L M C|args tr N S L M C P]; unfold field_report, parse_field;
      try (destruct (fd_name f) as [n|]; [|congruence]).
    + rewrite H; split; [reflexivity|discriminate].
    + pose proof (proj1 (attr_report_fault a q) F) as [_ Q].
      destruct (attrs_fault (fd_attrs f)) as [[xs X]|(m1 & b & m2 & s & E' & S2 & G & D)].
      { exfalso; apply parse_attrs_ok in X.
        assert (Y : sound_attrs (fd_attrs f)) by (apply attrs_sound; eauto).
        apply (Y a q); auto; rewrite E; apply in_app_iff; simpl; auto. }
      assert (b = a) as -> by (symmetry; apply (first_fault_eq l1 a l2 m1 b m2 q s); auto; rewrite <- E; auto).
      assert (s = q) as ->.
      { apply attr_report_fault in F as [F _]; apply attr_report_fault in G as [G _]; congruence. }
      destruct D as [(e & D & ->)|(D1 & D2 & ->)].
      * rewrite D; simpl; auto.
      * pose proof (attrs_not_stuck (fd_attrs f)).
        destruct (parse_attrs (fd_attrs f)) as [y|y| |]; [destruct (D1 y)|destruct (D2 y)|simpl|congruence]; auto.
    + apply attrs_sound in S as [xs X]; destruct (parsed_facts _ _ X) as (F1 & _).
      apply parse_attrs_ok in X; rewrite X; simpl; rewrite scan_start.
      unfold id_count in L; rewrite <- F1 in L; destruct (Nat.leb_spec (List.length (filter is_ident xs)) 1); [lia|].
      split; [reflexivity|discriminate].
    + apply attrs_sound in S as [xs X]; destruct (parsed_facts _ _ X) as (F1 & F2 & F3 & _).
      apply parse_attrs_ok in X; rewrite X; simpl; rewrite scan_start.
      unfold id_count in L; rewrite F1, L; simpl.
      rewrite (proj2 F2 M), (proj2 F3); [split; [reflexivity|discriminate]|].
      apply count_occ_not_In with (eq_dec := path_dec); auto.
    + apply attrs_sound in S as [xs X]; destruct (parsed_facts _ _ X) as (F1 & F2 & F3 & _).
      apply parse_attrs_ok in X; rewrite X; simpl; rewrite scan_start.
      unfold id_count in L; rewrite F1, L; simpl.
      rewrite (proj2 F2 M).
      destruct (first_ident xs) as [i|] eqn:I.
      2:{ exfalso; apply (proj1 F3 eq_refl); apply (count_occ_In path_dec); lia. }
      rewrite O by auto; split; [reflexivity|discriminate].
    + apply attrs_sound in S as [xs X]; destruct (parsed_facts _ _ X) as (F1 & F2 & F3 & _).
      apply parse_attrs_ok in X; rewrite X; simpl; rewrite scan_start.
      unfold id_count in L; rewrite F1, L; simpl.
      rewrite (proj2 F2 M).
      destruct (first_ident xs) as [i|] eqn:I.
      2:{ exfalso; apply (proj1 F3 eq_refl); apply (count_occ_In path_dec); lia. }
      destruct C as (q & l & rest & C); rewrite (T _ _ _ _ _ C), A by auto; split; [reflexivity|discriminate].
  - intros [H N]; unfold field_report, parse_field in H.
    destruct (fd_name f) as [n|] eqn:E; [|subst r; apply ff_name; auto].
    assert (E' : fd_name f <> None) by congruence.
    destruct (attrs_fault (fd_attrs f)) as [[xs X]|(l1 & a & l2 & s & L & S & G & D)].
    + assert (Z : sound_attrs (fd_attrs f)) by (apply attrs_sound; exists xs; apply parse_attrs_ok; auto).
      destruct (parsed_facts _ _ (proj1 (parse_attrs_ok _ _) X)) as (F1 & F2 & F3 & _).
      rewrite X in H; simpl in H; rewrite scan_start in H.
      destruct (Nat.leb_spec (List.length (filter is_ident xs)) 1) as [L|L].
      2:{ subst r; apply ff_ids; auto; unfold id_count; lia. }
      simpl in H; destruct (existsb is_cache xs) eqn:C; [|simpl in H; destruct (first_ident xs); congruence].
      assert (M : marked f) by (apply F2; auto).
      destruct (first_ident xs) as [i|] eqn:I.
      * assert (L1 : id_count f = 1).
        { unfold id_count; destruct (count_occ path_dec (map at_path (fd_attrs f)) id_path) as [|[|k]] eqn:K; auto; [|lia].
          apply count_occ_not_In in K; apply F3 in K; discriminate. }
        destruct (fd_ty f) as [q l [|[m [|args tr|]] rest]|] eqn:Ty;
          try (simpl in H; subst r; apply ff_type; auto; intros args' tr' (q' & l' & rest' & U); congruence).
        unfold parse_ty_cache in H; destruct (String.eqb_spec m "Option") as [->|W].
        2:{ simpl in H; subst r; apply ff_type; auto; intros args' tr' (q' & l' & rest' & U); congruence. }
        destruct (@args_as_segments field_error args tr) as [segs|e| |] eqn:Q; simpl in H; [congruence| | |].
        -- destruct args as [|[[[] [] sg|]|] [|y z]], tr; try discriminate; simpl in Q; destruct (forallb plain_seg sg); discriminate.
        -- subst r; apply ff_argument with args tr; auto.
           { exists q, l, rest; auto. }
           intros (-> & P); assert (B : exists segs, @args_as_segments field_error args false = Ok segs).
           { destruct P as [->|(segs & -> & P)]; [exists []; reflexivity|exists segs; apply args_ok; auto]. }
           destruct B as [sg B]; congruence.
        -- destruct args as [|[[[] [] sg|]|] [|y z]], tr; try discriminate; simpl in Q; destruct (forallb plain_seg sg); discriminate.
      * simpl in H; subst r; apply ff_no_id; auto.
        unfold id_count; apply count_occ_not_In; apply F3; auto.
    + assert (R : s = r).
      { destruct D as [(e & D & ->)|(D1 & D2 & ->)].
        - rewrite D in H; simpl in H; auto.
        - pose proof (attrs_not_stuck (fd_attrs f)).
          destruct (parse_attrs (fd_attrs f)) as [y|y| |]; [destruct (D1 y)|destruct (D2 y)|simpl in H|congruence]; auto. }
      subst s; eapply ff_attr; eauto.
Qed.

Lemma fine_accepted f : field_report f = Fine <-> exists cf, parse_field f = Ok cf.
Proof.
  unfold field_report; destruct (parse_field f) as [c|e| |]; split; intro H; try discriminate; eauto;
    try (destruct H; discriminate).
  - destruct (field_message e); discriminate.
  - destruct (fd_name f), (parse_attrs (fd_attrs f)); discriminate.
  - destruct (fd_name f), (parse_attrs (fd_attrs f)); discriminate.
Qed.

Lemma report_dec (r : report) : r = Fine \/ r <> Fine.
Proof. destruct r; [left; auto|right; discriminate|right; discriminate]. Qed.

Lemma no_fault f : (forall r, ~ field_fault f r) <-> field_report f = Fine.
Proof.
  split.
  - intro H; destruct (report_dec (field_report f)) as [E|N]; auto.
    destruct (H (field_report f)); apply fault_report; auto.
  - intros E r F; apply fault_report in F as [F N]; congruence.
Qed.

Lemma struct_report d r :
  (derive_report d = r /\ r <> Fine) <->
  (d = DOther /\ r = Says "not implemented") \/
  exists l1 f l2, d = DStruct (l1 ++ f :: l2)%list /\
    (forall g s, In g l1 -> ~ field_fault g s) /\ field_fault f r.
Proof.
  destruct d as [l|]; simpl.
  - split.
    + intros [H N]; right; induction l as [|f l IH]; simpl in H; [congruence|].
      destruct (report_dec (field_report f)) as [E|M].
      * rewrite E in H; destruct (IH H) as (l1 & g & l2 & L & S & G); injection L as ->.
        exists (f :: l1), g, l2; split; auto; split; auto.
        intros h s [<-|I]; [apply no_fault; auto|apply S; auto].
      * exists [], f, l; split; auto; split; [intros g s []|].
        apply fault_report; split; auto; destruct (field_report f); congruence.
    + intros [[H _]|(l1 & f & l2 & H & S & F)]; [discriminate|]; injection H as ->.
      apply fault_report in F as [F N]; split; auto.
      induction l1 as [|g l1 IH]; simpl.
      * rewrite F; destruct r; congruence.
      * rewrite (proj1 (no_fault g)) by (intros s; apply S; simpl; auto).
        apply IH; intros h s I; apply S; simpl; auto.
  - split.
    + intros [<- _]; auto.
    + intros [[_ ->]|(l1 & f & l2 & H & _)]; [split; [auto|discriminate]|discriminate].
Qed.

Lemma struct_fine d : derive_report d = Fine <-> exists fs, derive_context d = Ok fs.
Proof.
  rewrite struct_accepted; destruct d as [l|]; simpl; split.
  - intro H; exists l; split; auto; induction l as [|f l IH]; [intros f []|].
    simpl in H; destruct (report_dec (field_report f)) as [E|N]; [|destruct (field_report f); congruence].
    rewrite E in H; intros g [<-|I]; [|apply IH; auto].
    apply field_accepted, fine_accepted; auto.
  - intros (l' & E & H); injection E as <-; induction l as [|f l IH]; auto; simpl.
    rewrite (proj2 (fine_accepted f)) by (apply field_accepted; apply H; simpl; auto).
    apply IH; intros g I; apply H; simpl; auto.
  - discriminate.
  - intros (l & E & _); discriminate.
Qed.

(** Fields without a name. *)
Lemma unnamed_report f : fd_name f = None ->
  field_report f = shown_error "Field is labelled as #[cache] but has no #[id(.)] attr.".
Proof. intro H; apply (fault_report f); apply ff_name; auto. Qed.

(** * ctx_type! *)
Lemma modifier_report ts rs m :
  field_list rs ts ->
  (ctx_type_report ts = shown_error ("Invalid modifier: " ++ m ++ ".") <->
   exists rs1 r rs2, rs = (rs1 ++ r :: rs2)%list /\ (forall q, In q rs1 -> known_modifier q) /\
     rf_modifier r = Some m /\ ~ known_modifier r).
Proof.
  intro L; unfold ctx_type_report.
  rewrite (proj2 (parse_raws_list ts rs _ (le_n _)) L); clear L ts.
  assert (K : forall r, known_modifier r -> exists f, normalise r = Some f) by (intros r; apply normalise_accepts).
  assert (U : forall r, ~ known_modifier r -> normalise r = None).
  { intros r N; destruct (normalise r) eqn:E; auto; destruct N; apply normalise_accepts; eauto. }
  split.
  - induction rs as [|r rs IH]; simpl; [discriminate|]; intro H.
    destruct (normalise r) as [f|] eqn:E.
    + destruct IH as (l1 & q & l2 & -> & S & M & N); auto.
      exists (r :: l1), q, l2; split; auto; split; auto.
      intros p [<-|I]; auto; apply normalise_accepts; eauto.
    + destruct (rf_modifier r) as [m'|] eqn:Q.
      2:{ unfold normalise in E; rewrite Q in E; discriminate. }
      exists [], r, rs; split; auto; split; [intros p []|]; split.
      * unfold shown_error, unwrap_text, modifier_message in H; simpl in H.
        injection H as H; rewrite Q; f_equal.
        clear -H; revert m H; induction m' as [|c s IH]; intros [|d m] H; simpl in H; auto.
        -- injection H as _ H; destruct m; discriminate.
        -- injection H as _ H; destruct s; discriminate.
        -- injection H as -> H; f_equal; auto.
      * intro X; destruct (K r X); congruence.
  - intros (l1 & r & l2 & -> & S & M & N); induction l1 as [|q l1 IH]; simpl.
    + rewrite U, M by auto; reflexivity.
    + destruct (K q) as [f E]; [apply S; simpl; auto|]; rewrite E.
      apply IH; intros p I; apply S; simpl; auto.
Qed.

Lemma modifier_fine ts : ctx_type_report ts = Fine <-> exists d, ctx_type ts = Some d.
Proof.
  unfold ctx_type_report, ctx_type; destruct (parse_raws (List.length ts) ts) as [raws|].
  2:{ split; [discriminate|intros [d H]; discriminate]. }
  induction raws as [|r raws IH]; simpl; [split; eauto|].
  destruct (normalise r) as [f|] eqn:E; simpl.
  - rewrite IH; destruct (forallb _ _); split; eauto; intros [d H]; discriminate.
  - assert (exists m, rf_modifier r = Some m) as [m ->].
    { unfold normalise in E; destruct (rf_modifier r); eauto; discriminate. }
    split; [discriminate|intros [d H]; discriminate].
Qed.

Lemma modifier_syntax ts : ctx_type_report ts = Foreign <-> forall rs, ~ field_list rs ts.
Proof.
  unfold ctx_type_report; destruct (parse_raws (List.length ts) ts) as [raws|] eqn:P; split.
  - intro H; exfalso; induction raws as [|r raws IH] in H |- *; simpl in H; [discriminate|].
    destruct (normalise r), (rf_modifier r); try discriminate; auto.
  - intro H; destruct (H raws); apply (parse_raws_list ts raws _ (le_n _)); auto.
  - intros _ rs L; apply (parse_raws_list ts rs _ (le_n _)) in L; congruence.
  - auto.
Qed.

(** * derive(Contains) and aegir! *)
Lemma contains_reports d :
  (contains_report d = Fine <-> exists l, (d = ONamed l \/ d = OUnnamed l) /\ Forall one_op l) /\
  (contains_report d = Says "struct should have #[op] annotated successor nodes: ParseError" <->
   exists l, (d = ONamed l \/ d = OUnnamed l) /\ ~ Forall one_op l) /\
  (contains_report d = Says "not yet implemented" <-> forall l, d <> ONamed l /\ d <> OUnnamed l).
Proof.
  assert (N : forall l, ~ Forall one_op l -> named_fields l = Err OpParseError).
  { induction l as [|f l IH]; intro H; [destruct H; constructor|]; simpl.
    destruct (op_attributes f) as [[]|[]| |] eqn:O; simpl; auto.
    - rewrite IH; auto; intro G; apply H; constructor; auto; apply op_attributes_ok; auto.
    - unfold op_attributes in O; destruct (Nat.eqb _ _) in O; discriminate.
    - unfold op_attributes in O; destruct (Nat.eqb _ _) in O; discriminate. }
  assert (U : forall l i, ~ Forall one_op l -> unnamed_fields i l = Err OpParseError).
  { induction l as [|f l IH]; intros i H; [destruct H; constructor|]; simpl.
    destruct (op_attributes f) as [[]|[]| |] eqn:O; simpl; auto.
    - rewrite IH; auto; intro G; apply H; constructor; auto; apply op_attributes_ok; auto.
    - unfold op_attributes in O; destruct (Nat.eqb _ _) in O; discriminate.
    - unfold op_attributes in O; destruct (Nat.eqb _ _) in O; discriminate. }
  assert (D : forall l, Forall one_op l \/ ~ Forall one_op l).
  { intro l; destruct (Forall_dec one_op (fun f => Nat.eq_dec _ 1) l); auto. }
  assert (X : forall l, d = ONamed l \/ d = OUnnamed l ->
    (Forall one_op l -> contains_report d = Fine) /\
    (~ Forall one_op l -> contains_report d = Says "struct should have #[op] annotated successor nodes: ParseError")).
  { intros l [->| ->]; unfold contains_report; simpl; split; intro H.
    - apply named_ok in H as [fs ->]; auto.
    - rewrite N; auto.
    - apply (unnamed_ok l 0) in H as [fs ->]; auto.
    - rewrite U; auto. }
  assert (Y : (exists l, d = ONamed l \/ d = OUnnamed l) \/
              ((forall l, d <> ONamed l /\ d <> OUnnamed l) /\ contains_report d = Says "not yet implemented")).
  { destruct d as [l|l| | |]; eauto; right; split; auto; split; discriminate. }
  assert (Z : forall l m, d = ONamed l \/ d = OUnnamed l -> d = ONamed m \/ d = OUnnamed m -> l = m).
  { intros l m [->| ->] [E|E]; congruence. }
  destruct Y as [[l L]|[A B]].
  - destruct (X l L) as [P Q]; destruct (D l) as [F|F].
    + rewrite (P F); split; [split; eauto|]; split; (split; [discriminate|]).
      * intros (m & M & G); destruct (G); rewrite <- (Z l m); auto.
      * intro H; destruct (H l), L; congruence.
    + rewrite (Q F); split; [|split].
      * split; [discriminate|]; intros (m & M & G); destruct F; rewrite (Z l m); auto.
      * split; eauto.
      * split; [discriminate|]; intro H; destruct (H l), L; congruence.
  - rewrite B; split; [|split].
    + split; [discriminate|]; intros (m & [M|M] & _); destruct (A m); congruence.
    + split; [discriminate|]; intros (m & [M|M] & _); destruct (A m); congruence.
    + split; auto.
Qed.

Lemma aegir_reports e :
  (aegir_report e = Fine \/ aegir_report e = Says "not implemented") /\
  (aegir_report e = Says "not implemented" <-> exists op l r, inside (RBin op l r) e /\ unsupported op).
Proof.
  unfold aegir_report; rewrite <- fold_panics.
  destruct (fold_split e) as [[-> _]|[[c ->] _]]; split; auto; split; intro H; auto; discriminate.
Qed.

(** * Doc comments *)
Lemma double_same s : double s = s <-> forall a, In a (list_ascii_of_string s) -> a <> "{"%char /\ a <> "}"%char.
Proof.
  assert (L : forall t, String.length t <= String.length (double t)).
  { induction t as [|a t IH]; simpl; auto; destruct (_ || _)%bool; simpl; lia. }
  induction s as [|a s IH]; simpl; [split; auto; intros _ a []|].
  destruct (Ascii.eqb_spec a "{") as [->|A]; simpl.
  { split.
    - intro H; injection H as H; apply (f_equal String.length) in H; simpl in H; pose proof (L s); lia.
    - intro H; destruct (H "{"%char); auto; congruence. }
  destruct (Ascii.eqb_spec a "}") as [->|B].
  { split.
    - intro H; injection H as H; apply (f_equal String.length) in H; simpl in H; pose proof (L s); lia.
    - intro H; destruct (H "}"%char); auto; congruence. }
  split.
  - intro H; injection H as H; intros b [<-|I]; auto; apply IH; auto.
  - intro H; f_equal; apply IH; auto.
Qed.

Lemma text_length s t : String.length (s ++ t) = String.length s + String.length t.
Proof. induction s; simpl; auto. Qed.
Lemma append_inj_r s t u : (s ++ u)%string = (t ++ u)%string -> s = t.
Proof.
  revert t; induction s as [|a s IH]; intros [|b t] H; simpl in H; auto.
  - apply (f_equal String.length) in H; simpl in H; rewrite text_length in H; lia.
  - apply (f_equal String.length) in H; simpl in H; rewrite text_length in H; lia.
  - injection H as -> H; f_equal; auto.
Qed.

Lemma doc_shown ds d u : NoDup (map type_id ds) -> In d ds ->
  eval_display (expand ds) (type_id d) = Some u ->
  (doc_comment d = ("Identifier type with symbol `" ++ u ++ "`.")%string <->
   match symbol d with
   | Some s => forall a, In a (list_ascii_of_string s) -> a <> "{"%char /\ a <> "}"%char
   | None => type_id d = "type_id"
   end).
Proof.
  intros N D; rewrite ids_display by auto; unfold doc_comment.
  assert (X : forall s t, ("Identifier type with symbol `" ++ s ++ "`.")%string =
                          ("Identifier type with symbol `" ++ t ++ "`.")%string <-> s = t).
  { intros s t; split; [|congruence]; simpl; intro H; injection H as H; apply append_inj_r in H; auto. }
  rewrite X; destruct (symbol d) as [s|]; intro F.
  - apply (format_inv _ s u (le_n _)) in F; subst s; split.
    + intro H; rewrite H; apply double_same; auto.
    + intro H; apply double_same; intros a I; apply H.
      clear -I; induction u as [|b u IH]; simpl in *; [tauto|].
      destruct (_ || _)%bool; simpl; destruct I; auto.
  - injection F as <-; tauto.
Qed.

(** Whatever the derive does not accept aborts compilation. *)
Lemma derive_panics d : derive_context d = Panic <-> forall fs, derive_context d <> Ok fs.
Proof.
  assert (P : forall f, parse_field f <> Stuck).
  { intro f; unfold parse_field; destruct (fd_name f); [|discriminate].
    assert (A := attrs_not_stuck (fd_attrs f)); destruct (parse_attrs (fd_attrs f)) as [l|e| |]; cbn; try discriminate; [|congruence].
    assert (Q : forall l b i, scan_attrs l b i <> Stuck).
    { clear; induction l as [|[s0| |] l IH]; intros b i; cbn; try discriminate; auto; destruct i; [discriminate|auto]. }
    assert (Q' := Q l false None); destruct (scan_attrs l false None) as [[b i]|e| |]; cbn; try discriminate; [|congruence].
    assert (T : parse_ty_cache (fd_ty f) <> Stuck).
    { unfold parse_ty_cache; destruct (fd_ty f) as [q g [|[s0 [|args tr|]] ss]|]; try discriminate.
      destruct (String.eqb s0 "Option"); [|discriminate].
      unfold args_as_segments; destruct args as [|[[[] [] segs|]|] [|? ?]], tr; cbn; try discriminate.
      destruct (forallb plain_seg segs); discriminate. }
    destruct b, i; cbn; try discriminate; destruct (parse_ty_cache (fd_ty f)); cbn; congruence. }
  split; [intros -> fs; discriminate|]; intro N; destruct d as [l|]; [|reflexivity]; cbn [derive_context] in *.
  assert (X : (exists cs, extract_fields l = Ok cs) \/ extract_fields l = Panic).
  { clear N; induction l as [|f l IH]; cbn; [eauto|].
    assert (Pf := P f); destruct (parse_field f) as [c|e| |]; cbn; auto; [|congruence].
    destruct IH as [[cs ->]| ->]; cbn; eauto. }
  destruct X as [[cs E]|E]; rewrite E in *; [|reflexivity]; exfalso; exact (N _ eq_refl).
Qed.
