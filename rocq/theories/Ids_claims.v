(** Proofs about [ids!], in the form used by Properties_macros.v. *)
From Coq Require Import List Arith Bool String Ascii Lia.
Import ListNotations.
From Verif Require Import Base Ids Macro_math.
Local Open Scope string_scope.

Section Expand.
Variable ds : list data_id.
Let one (d : data_id) : list item :=
  IStruct (type_id d) :: IIdentifier (type_id d) :: impl_display d ::
  map (fun e => IPartialEq (type_id d) (type_id e) false)
      (filter (fun e => negb (String.eqb (type_id e) (type_id d))) ds).

Lemma eval_eq_app l r a b :
  eval_eq (l ++ r)%list a b = match eval_eq l a b with Some x => Some x | None => eval_eq r a b end.
Proof.
  induction l as [|[t|t|t s|t u x] l IH]; simpl; auto.
  - destruct (_ && _); auto.
  - destruct (_ && _); auto.
Qed.
Lemma eval_display_app l r a :
  eval_display (l ++ r)%list a =
  if existsb (fun i => match i with IDisplay t _ => String.eqb t a | _ => false end) l
  then eval_display l a else eval_display r a.
Proof.
  induction l as [|[t|t|t s|t u x] l IH]; simpl; auto.
  destruct (String.eqb t a); auto.
Qed.

Lemma eval_eq_others d a b :
  eval_eq (map (fun e => IPartialEq (type_id d) (type_id e) false)
               (filter (fun e => negb (String.eqb (type_id e) (type_id d))) ds)) a b =
  if String.eqb (type_id d) a && negb (String.eqb a b) && existsb (fun e => String.eqb (type_id e) b) ds
  then Some false else None.
Proof.
  induction ds as [|e l IH]; simpl; [rewrite andb_false_r; auto|].
  destruct (String.eqb_spec (type_id e) (type_id d)) as [E|E]; simpl.
  - rewrite IH; destruct (String.eqb_spec (type_id d) a) as [D|D]; simpl; auto.
    destruct (String.eqb_spec a b) as [B|B]; simpl; auto.
    destruct (String.eqb_spec (type_id e) b); simpl; auto; congruence.
  - rewrite IH; destruct (String.eqb_spec (type_id d) a) as [D|D]; simpl; auto.
    destruct (String.eqb_spec (type_id e) b) as [B|B]; simpl.
    + destruct (String.eqb_spec a b); simpl; auto; congruence.
    + destruct (negb (String.eqb a b)); auto.
Qed.

Lemma eval_eq_one d a b :
  eval_eq (one d) a b =
  if String.eqb (type_id d) a then
    if String.eqb a b then Some true
    else if existsb (fun e => String.eqb (type_id e) b) ds then Some false else None
  else None.
Proof.
  unfold one, impl_display; cbn [eval_eq]; rewrite eval_eq_others.
  destruct (String.eqb_spec (type_id d) a) as [D|D]; simpl; auto.
  subst a; destruct (String.eqb_spec (type_id d) b); simpl; auto.
Qed.

Lemma eval_eq_all l a b :
  eval_eq (flat_map one l) a b =
  if existsb (fun e => String.eqb (type_id e) a) l then
    if String.eqb a b then Some true
    else if existsb (fun e => String.eqb (type_id e) b) ds then Some false else None
  else None.
Proof.
  induction l as [|d l IH]; auto; cbn [flat_map existsb].
  rewrite eval_eq_app, eval_eq_one, IH.
  destruct (String.eqb_spec (type_id d) a) as [D|D]; simpl; auto.
  destruct (String.eqb a b); auto; destruct (existsb _ ds); auto.
  destruct (existsb _ l); auto.
Qed.

Lemma eval_display_all l a :
  eval_display (flat_map one l) a =
  match find (fun e => String.eqb (type_id e) a) l with
  | Some d => format_text (match symbol d with Some s => s | None => "type_id" end)
  | None => None
  end.
Proof.
  induction l as [|d l IH]; auto; cbn [flat_map find].
  rewrite eval_display_app, IH.
  assert (N : forall x, existsb (fun i => match i with IDisplay t _ => String.eqb t a | _ => false end)
     (map (fun e => IPartialEq (type_id d) (type_id e) false) x) = false) by (induction x; auto).
  unfold one at 1; unfold impl_display; cbn [existsb]; rewrite N, orb_false_r; cbn [orb].
  unfold one, impl_display; cbn [eval_display].
  destruct (String.eqb (type_id d) a); auto.
Qed.
End Expand.

Lemma expand_eq ds a b : In a ds -> In b ds ->
  eval_eq (expand ds) (type_id a) (type_id b) = Some (String.eqb (type_id a) (type_id b)).
Proof.
  intros A B; unfold expand; rewrite eval_eq_all.
  assert (X : forall d, In d ds -> existsb (fun e => String.eqb (type_id e) (type_id d)) ds = true).
  { intros d D; apply existsb_exists; exists d; split; auto; apply String.eqb_refl. }
  rewrite X, (X b) by auto; destruct (String.eqb _ _); auto.
Qed.

(** Types compare equal exactly when they are the same. *)
Lemma ids_eq ds a b : NoDup (map type_id ds) -> In a ds -> In b ds ->
  exists x, eval_eq (expand ds) (type_id a) (type_id b) = Some x /\ (x = true <-> a = b).
Proof.
  intros N A B; rewrite expand_eq by auto; eexists; split; [reflexivity|].
  rewrite String.eqb_eq; split; [|congruence]; intro E.
  clear -N A B E; induction ds as [|d ds IH]; [destruct A|].
  simpl in *; inversion N as [|x l N1 N2]; subst.
  destruct A as [->|A], B as [->|B]; auto.
  - exfalso; apply N1; rewrite E; apply in_map; auto.
  - exfalso; apply N1; rewrite <- E; apply in_map; auto.
Qed.

Lemma find_id ds d : NoDup (map type_id ds) -> In d ds ->
  find (fun e => String.eqb (type_id e) (type_id d)) ds = Some d.
Proof.
  intros N D; induction ds as [|e ds IH]; [destruct D|]; simpl in *; inversion N as [|x l N1 N2]; subst.
  destruct D as [->|D]; [rewrite String.eqb_refl; auto|].
  destruct (String.eqb_spec (type_id e) (type_id d)) as [E|E]; auto.
  exfalso; apply N1; rewrite E; apply in_map; auto.
Qed.

Lemma ids_display ds d : NoDup (map type_id ds) -> In d ds ->
  eval_display (expand ds) (type_id d) =
  format_text (match symbol d with Some s => s | None => "type_id" end).
Proof. intros N D; unfold expand; rewrite eval_display_all, find_id; auto. Qed.

(** Format strings without arguments. *)
Fixpoint double (s : string) : string :=
  match s with
  | EmptyString => ""
  | String a s' =>
      if (Ascii.eqb a "{" || Ascii.eqb a "}")%bool then String a (String a (double s')) else String a (double s')
  end.
Lemma format_inv n s t : String.length s <= n -> format_text s = Some t -> s = double t.
Proof.
  revert s t; induction n as [|n IH]; intros s t L E.
  - destruct s; [|simpl in L; lia]; injection E as <-; auto.
  - destruct s as [|a s]; [injection E as <-; auto|].
    cbn [String.length] in L.
    destruct (ascii_dec a "{") as [->|A]; [|destruct (ascii_dec a "}") as [->|B]].
    + destruct s as [|b s]; [discriminate|]; destruct (ascii_dec b "{") as [->|B].
      * cbn [format_text] in E; destruct (format_text s) as [u|] eqn:Q; [|discriminate].
        injection E as <-; cbn; apply IH in Q; [rewrite <- Q; auto|cbn [String.length] in L; lia].
      * exfalso; revert E; cbn; destruct b as [[] [] [] [] [] [] [] []]; try discriminate; congruence.
    + destruct s as [|b s]; [discriminate|]; destruct (ascii_dec b "}") as [->|B].
      * cbn [format_text] in E; destruct (format_text s) as [u|] eqn:Q; [|discriminate].
        injection E as <-; cbn; apply IH in Q; [rewrite <- Q; auto|cbn [String.length] in L; lia].
      * exfalso; revert E; cbn; destruct b as [[] [] [] [] [] [] [] []]; try discriminate; congruence.
    + assert (F : format_text (String a s) = option_map (String a) (format_text s)).
      { destruct a as [[] [] [] [] [] [] [] []]; try reflexivity; congruence. }
      rewrite F in E; destruct (format_text s) as [u|] eqn:Q; [|discriminate].
      injection E as <-; cbn [double]; apply IH in Q; [|lia].
      destruct (Ascii.eqb_spec a "{"); [congruence|]; destruct (Ascii.eqb_spec a "}"); [congruence|].
      cbn; rewrite <- Q; auto.
Qed.
Lemma format_inj s t u : format_text s = Some u -> format_text t = Some u -> s = t.
Proof.
  intros A B; rewrite (format_inv _ s u (le_n _) A), (format_inv _ t u (le_n _) B); auto.
Qed.

(** Distinct symbols are shown differently. *)
Lemma ids_display_inj ds a b u : NoDup (map type_id ds) -> NoDup (map shown ds) -> In a ds -> In b ds ->
  eval_display (expand ds) (type_id a) = Some u -> eval_display (expand ds) (type_id b) = Some u -> a = b.
Proof.
  intros N M A B; rewrite !ids_display by auto; fold (shown a); fold (shown b); intros E F.
  pose proof (format_inj _ _ _ E F) as Q; clear -M A B Q.
  induction ds as [|d ds IH]; [destruct A|].
  simpl in *; inversion M as [|x l N1 N2]; subst.
  destruct A as [->|A], B as [->|B]; auto.
  - exfalso; apply N1; rewrite Q; apply in_map; auto.
  - exfalso; apply N1; rewrite <- Q; apply in_map; auto.
Qed.

(** * Syntax *)
Lemma entry_parse d ts r : id_entry d ts -> match r with TColon2 :: _ => False | _ => True end ->
  parse_data_id (ts ++ r)%list = Some (d, r).
Proof. intros E R; inversion E; subst; simpl; auto; destruct r as [|[] r]; auto; destruct R. Qed.

Lemma parse_entry ts d r : parse_data_id ts = Some (d, r) -> exists h, id_entry d h /\ ts = (h ++ r)%list.
Proof.
  destruct ts as [|[t| | |s|] ts]; try discriminate; simpl.
  destruct ts as [|[t'| | |s|] ts]; intro E; try (injection E as <- <-; eexists; split; [constructor|reflexivity]).
  destruct ts as [|[t'| | |s|] ts]; try discriminate;
    injection E as <- <-; [exists [TIdent t; TColon2; TIdent t']|exists [TIdent t; TColon2; TStr s]];
    split; constructor.
Qed.

Lemma entry_length d ts : id_entry d ts -> 1 <= List.length ts.
Proof. intro E; inversion E; simpl; lia. Qed.

Lemma parse_list ts ds : parse_ids ts = Some ds <-> id_list ds ts.
Proof.
  unfold parse_ids; split.
  - generalize (S (List.length ts)) as f; intro f; revert ts ds; induction f as [|f IH]; intros ts ds E; [discriminate|].
    cbn [parse_separated] in E; destruct (parse_data_id ts) as [[d [|t r]]|] eqn:P; [| |discriminate].
    + injection E as <-; apply parse_entry in P as (h & H & ->); rewrite app_nil_r; constructor; auto.
    + destruct t; try discriminate; destruct (parse_separated f r) as [l|] eqn:Q; [|discriminate].
      injection E as <-; apply parse_entry in P as (h & H & ->); constructor; auto.
  - intro L; assert (G : forall f, List.length ts < f -> parse_separated f ts = Some ds).
    { induction L as [d ts E|d ts ds r E L IH]; intros f Hf; (destruct f as [|f]; [lia|]); cbn [parse_separated].
      - rewrite <- (app_nil_r ts), (entry_parse d ts []); auto.
      - rewrite (entry_parse d ts (TComma :: r)) by (auto; exact I).
        rewrite app_length in Hf; cbn [List.length] in Hf; pose proof (entry_length d ts E).
        rewrite IH by lia; auto. }
    apply G; lia.
Qed.

(** * The generated items define nothing twice exactly when the type names are distinct *)
Lemma NoDup_flat_map {A B K} (g : A -> K) (key : B -> K) (f : A -> list B) l :
  NoDup (map g l) -> (forall d x, In x (f d) -> key x = g d) -> (forall d, In d l -> NoDup (f d)) ->
  NoDup (flat_map f l).
Proof.
  intros N H F; induction l as [|d l IH]; [constructor|]; simpl in *; inversion N as [|x y N1 N2]; subst.
  assert (NA : forall a b : list B, NoDup a -> NoDup b -> (forall x, In x a -> ~ In x b) -> NoDup (a ++ b)).
  { induction a as [|x a IHa]; intros b Na Nb Dj; auto; simpl; inversion Na; subst; constructor.
    - rewrite in_app_iff; intros [?|?]; [auto|apply (Dj x); simpl; auto].
    - apply IHa; auto; intros; apply Dj; simpl; auto. }
  apply NA; auto.
  intros x X Y; apply N1; apply in_flat_map in Y as (e & E & Y).
  apply H in X; apply H in Y; rewrite <- X, Y; apply in_map; auto.
Qed.

Lemma flat_map_flat_map {A B C} (f : B -> list C) (g : A -> list B) l :
  flat_map f (flat_map g l) = flat_map (fun x => flat_map f (g x)) l.
Proof. induction l; simpl; auto; rewrite flat_map_app, IHl; auto. Qed.

Lemma defined_once ds : NoDup (flat_map defines (expand ds)) <-> NoDup (map type_id ds).
Proof.
  unfold expand; rewrite flat_map_flat_map; split.
  - generalize ds at 1 as es; intro es; induction ds as [|d l IH]; intro N; [constructor|].
    simpl in *; constructor.
    + intro I; apply in_map_iff in I as (e & E & I).
      inversion N as [|x y N1 N2]; subst; apply N1.
      do 3 right; rewrite !in_app_iff; right.
      apply in_flat_map; exists e; split; auto; simpl; rewrite E; auto.
    + apply IH; repeat (inversion N as [|? ? _ N']; subst; clear N; rename N' into N).
      clear -N; induction (flat_map _ (map _ _)) as [|x y IHy] in N |- *; auto; apply IHy; inversion N; auto.
  - intro N; apply (NoDup_flat_map type_id (fun x => snd (fst x))); auto.
    + intros d x; simpl; intros [<-|[<-|[<-|[<-|I]]]]; auto.
      apply in_flat_map in I as (i & I & X); apply in_map_iff in I as (e & <- & _).
      simpl in X; destruct X as [<-|[]]; auto.
    + intros d D; simpl.
      assert (G : forall x, In x (flat_map defines (map (fun e => IPartialEq (type_id d) (type_id e) false)
        (filter (fun e => negb (String.eqb (type_id e) (type_id d))) ds))) ->
        exists u, x = ("PartialEq", type_id d, u) /\ u <> type_id d).
      { intros x X; apply in_flat_map in X as (i & I & X); apply in_map_iff in I as (e & <- & I).
        apply filter_In in I as [_ I]; simpl in X; destruct X as [<-|[]]; eexists; split; auto.
        intro E; rewrite E, String.eqb_refl in I; discriminate. }
      constructor; [|constructor; [|constructor; [|constructor]]]; simpl.
      * intros [E|[E|[E|I]]]; try discriminate; apply G in I as (u & E & _); discriminate.
      * intros [E|[E|I]]; try discriminate; apply G in I as (u & E & U); injection E as E; congruence.
      * intros [E|I]; try discriminate; apply G in I as (u & E & _); discriminate.
      * intro I; apply G in I as (u & E & _); discriminate.
      * clear D G; induction ds as [|e l IH]; [constructor|]; simpl in *; inversion N as [|x y N1 N2]; subst.
        destruct (String.eqb (type_id e) (type_id d)); simpl; auto.
        constructor; auto; intro I; apply in_flat_map in I as (i & I & X).
        apply in_map_iff in I as (e' & <- & I); apply filter_In in I as [I _].
        simpl in X; destruct X as [X|[]]; injection X as X; apply N1; rewrite <- X; apply in_map; auto.
Qed.

(** The identifiers of the crate. *)
Lemma nodup_check (l : list string) :
  (if list_eq_dec string_dec (nodup string_dec l) l then true else false) = true -> NoDup l.
Proof. destruct (list_eq_dec _ _) as [E|]; [|discriminate]; intros _; rewrite <- E; apply NoDup_nodup. Qed.

Lemma crate_distinct : exists ds, parse_ids crate_ids = Some ds /\ List.length ds = 50 /\
  forall a b, In a ds -> In b ds -> a <> b ->
  eval_eq (expand ds) (type_id a) (type_id b) = Some false /\
  exists u v, eval_display (expand ds) (type_id a) = Some u /\ eval_display (expand ds) (type_id b) = Some v /\ u <> v.
Proof.
  destruct (parse_ids crate_ids) as [ds|] eqn:P; [|vm_compute in P; discriminate].
  exists ds; split; auto.
  assert (E : ds = match parse_ids crate_ids with Some l => l | None => [] end) by (rewrite P; auto).
  assert (L : List.length ds = 50) by (rewrite E; vm_compute; reflexivity).
  assert (N : NoDup (map type_id ds)) by (rewrite E; apply nodup_check; vm_compute; reflexivity).
  assert (M : NoDup (map shown ds)) by (rewrite E; apply nodup_check; vm_compute; reflexivity).
  assert (D : forallb (fun d => match format_text (shown d) with Some _ => true | None => false end) ds = true)
    by (rewrite E; vm_compute; reflexivity).
  clear E P; split; auto; intros a b A B AB.
  destruct (ids_eq ds a b N A B) as (x & X & Y); split.
  - destruct x; auto; destruct AB; apply Y; auto.
  - assert (T : forall d, In d ds -> exists u, eval_display (expand ds) (type_id d) = Some u).
    { intros d I; rewrite ids_display by auto; fold (shown d).
      rewrite forallb_forall in D; specialize (D d I); destruct (format_text (shown d)); [eauto|discriminate]. }
    destruct (T a A) as [u U], (T b B) as [v V]; exists u, v; split; auto; split; auto.
    intro Q; subst v; apply AB; apply (ids_display_inj ds a b u N M A B U V).
Qed.

(** Their symbols, in the order of the alphabets. *)
Lemma below_check n (p : nat -> bool) : forallb p (seq 0 n) = true -> forall k, k < n -> p k = true.
Proof. intros H k L; rewrite forallb_forall in H; apply H, in_seq; lia. Qed.

Lemma shown_check ds a u :
  (match eval_display (expand ds) a with Some v => String.eqb v u | None => false end) = true ->
  eval_display (expand ds) a = Some u.
Proof. destruct (eval_display _ _) as [v|]; [|discriminate]; intro E; apply String.eqb_eq in E; congruence. Qed.

Lemma crate_symbols : exists ds, parse_ids crate_ids = Some ds /\ List.length ds = 50 /\
  (forall k, k < 26 -> eval_display (expand ds) (latin_capital k) = Some (latin_small k)) /\
  (forall k t, nth_error greek_names k = Some t ->
     eval_display (expand ds) t = Some (utf8_two (if (k <=? 19)%nat then 945 + k else 946 + k))).
Proof.
  exists (match parse_ids crate_ids with Some l => l | None => [] end).
  split; [vm_compute; reflexivity|split; [vm_compute; reflexivity|split]].
  - intros k L; apply shown_check; revert k L; apply below_check; vm_compute; reflexivity.
  - intros k t N; assert (L : k < 24) by (change 24 with (List.length greek_names); apply nth_error_Some; rewrite N; discriminate).
    replace t with (nth k greek_names ""%string) by (apply nth_error_nth; auto).
    apply shown_check; clear N; revert k L; apply below_check; vm_compute; reflexivity.
Qed.

Lemma crate_own : exists ds, parse_ids crate_ids = Some ds /\
  (forall k, k < 26 -> eval_display (expand ds) (latin_capital k) = Some (latin_small k)) /\
  (forall k t, nth_error greek_names k = Some t ->
     (eval_display (expand ds) t = Some (utf8_two (greek_code k)) <->
      ~ In t ["Sigma"; "Tau"; "Upsilon"]%string)).
Proof.
  destruct crate_symbols as (ds & P & _ & La & Gr); exists ds; split; auto; split; auto.
  intros k t N; rewrite (Gr k t N); assert (L : k < 24) by (change 24 with (List.length greek_names); apply nth_error_Some; rewrite N; discriminate).
  assert (T : (k = 17 \/ k = 18 \/ k = 19) <-> In t ["Sigma"; "Tau"; "Upsilon"]%string).
  { do 24 (destruct k as [|k]; [cbn in N; injection N as <-; simpl; split; [intuition (discriminate || lia || auto)|intuition (discriminate || lia)]|]); lia. }
  rewrite <- T; split.
  - intros E Z; injection E as E; revert E; unfold greek_code; destruct Z as [-> | [-> | ->]]; vm_compute; discriminate.
  - intro Z; f_equal; f_equal; unfold greek_code.
    destruct (Nat.leb_spec k 19), (Nat.leb_spec k 16); lia.
Qed.

Lemma crate_letters_wrong : exists ds k t, parse_ids crate_ids = Some ds /\
  nth_error greek_names k = Some t /\ eval_display (expand ds) t <> Some (utf8_two (greek_code k)) /\
  exists j u, nth_error greek_names j = Some u /\ u <> t /\
  eval_display (expand ds) t = Some (utf8_two (greek_code j)).
Proof.
  destruct crate_symbols as (ds & P & _ & _ & Gr).
  exists ds, 18, "Tau"%string; split; auto; split; [reflexivity|].
  rewrite (Gr 18 "Tau"%string eq_refl); split; [vm_compute; discriminate|].
  exists 17, "Sigma"%string; split; [reflexivity|split; [discriminate|vm_compute; reflexivity]].
Qed.
