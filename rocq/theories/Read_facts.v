(** Every text has at most one reading: a parser for the grammar of Text_math.v, used only in
    proofs. *)
From Coq Require Import List Arith Bool String Ascii Reals Lia.
Import ListNotations.
From Verif Require Import Base Shapes Scalar Buffers Spec Contraction Node Eval Instances Real_math Fmt Fmt_math
  Text_math.
Local Open Scope string_scope.

Lemma app_assoc_s (a b c : string) : (a ++ b) ++ c = a ++ b ++ c.
Proof. induction a; simpl; congruence. Qed.
Lemma app_nil_s (a : string) : a ++ "" = a.
Proof. induction a; simpl; congruence. Qed.

Fixpoint strip (t s : string) : option string :=
  match t, s with
  | EmptyString, _ => Some s
  | String a t', String b s' => if Ascii.eqb a b then strip t' s' else None
  | _, EmptyString => None
  end.
Lemma strip_app t s : strip t (t ++ s) = Some s.
Proof. induction t; simpl; [reflexivity|]. rewrite Ascii.eqb_refl; auto. Qed.

Fixpoint span (p : ascii -> bool) (s : string) : string * string :=
  match s with
  | EmptyString => ("", "")
  | String a s' => if p a then let (x, y) := span p s' in (String a x, y) else ("", s)
  end.
Fixpoint every (p : ascii -> bool) (s : string) : bool :=
  match s with EmptyString => true | String a s' => p a && every p s' end.
Definition stops (p : ascii -> bool) (r : string) : Prop :=
  match r with EmptyString => True | String a _ => p a = false end.
Lemma span_app p s r : every p s = true -> stops p r -> span p (s ++ r) = (s, r).
Proof.
  induction s as [|a s IH]; simpl; intros E R.
  - destruct r; simpl in *; [reflexivity|]. rewrite R; reflexivity.
  - apply andb_prop in E as [-> E]. rewrite IH; auto.
Qed.

Definition num_byte (a : ascii) : bool := digit a || point a.
Fixpoint fn_of (l : list (string * unop)) (f : string) : option unop :=
  match l with [] => None | (g, u) :: l' => if String.eqb f g then Some u else fn_of l' f end.

(** What may follow a sum, a product, a signed phrase, an atom. *)
Definition F0 := [")"; "|"; ", "; "⟩"].
Definition F1 := (F0 ++ [" + "; " - "])%list.
Definition F2 := (F1 ++ [" ∘ "; " ⊗ "; " : "; " / "; "/"])%list.
Definition F3 := (F2 ++ ["^"])%list.
Definition follow (L : list string) (r : string) : Prop := r = "" \/ exists t q, In t L /\ r = t ++ q.

Lemma follow_le L L' r : follow L r -> follow (L ++ L') r.
Proof. intros [->|(t & q & I & ->)]; [left; reflexivity|right; exists t, q; split; [apply in_or_app; auto|reflexivity]]. Qed.
Lemma follow_in L t q : In t L -> follow L (t ++ q).
Proof. intro I; right; exists t, q; auto. Qed.

Section Parse.
Variables (inf : R) (sp : libfn -> R -> R) (rho : string -> R).

Inductive lvl := LSum | LSums (x : R) | LProd | LProds (x : R) | LSigned | LPow | LAtom.

Fixpoint parse (fuel : nat) (k : lvl) (s : string) : option (R * string) :=
  match fuel with
  | 0 => None
  | S f =>
      match k with
      | LSum => match parse f LProd s with Some (x, r) => parse f (LSums x) r | None => None end
      | LSums x =>
          match strip " + " s with
          | Some t => match parse f LProd t with Some (y, r) => parse f (LSums (x + y)) r | None => None end
          | None =>
          match strip " - " s with
          | Some t => match parse f LProd t with Some (y, r) => parse f (LSums (x - y)) r | None => None end
          | None => Some (x, s)
          end end
      | LProd => match parse f LSigned s with Some (x, r) => parse f (LProds x) r | None => None end
      | LProds x =>
          let times t := match parse f LSigned t with Some (y, r) => parse f (LProds (x * y)) r | None => None end in
          let over t := match parse f LSigned t with Some (y, r) => parse f (LProds (x / y)) r | None => None end in
          match strip " ∘ " s with Some t => times t | None =>
          match strip " ⊗ " s with Some t => times t | None =>
          match strip " : " s with Some t => times t | None =>
          match strip " / " s with Some t => over t | None =>
          match strip "/" s with Some t => over t | None => Some (x, s) end end end end end
      | LSigned =>
          match strip "-" s with
          | Some t => match parse f LSigned t with Some (x, r) => Some ((- x)%R, r) | None => None end
          | None => parse f LPow s
          end
      | LPow =>
          match parse f LAtom s with
          | Some (x, r) =>
              match strip "^" r with
              | Some t => match parse f LSigned t with Some (y, r') => Some (R_pow x y, r') | None => None end
              | None => Some (x, r)
              end
          | None => None
          end
      | LAtom =>
          match strip "(" s with
          | Some t => match parse f LSum t with
                      | Some (x, r) => match strip ")" r with Some r' => Some (x, r') | None => None end
                      | None => None end
          | None =>
          match strip "|" s with
          | Some t => match parse f LSum t with
                      | Some (x, r) => match strip "|" r with Some r' => Some (Rabs x, r') | None => None end
                      | None => None end
          | None =>
          match strip "⟨" s with
          | Some t =>
              match parse f LSum t with
              | Some (x, r) =>
                  match strip ", " r with
                  | Some r' => match parse f LSum r' with
                               | Some (y, q) => match strip "⟩" q with Some q' => Some ((x * y)%R, q') | None => None end
                               | None => None end
                  | None => None end
              | None => None end
          | None =>
          match strip "𝑒" s with
          | Some t => Some (exp 1, t)
          | None =>
          match span num_byte s with
          | (String a n, r) => Some (decimal (String a n), r)
          | (EmptyString, _) =>
          match span name_byte s with
          | (EmptyString, _) => None
          | (n, r) =>
              match strip "(" r with
              | Some t => match fn_of functions n, parse f LSum t with
                          | Some u, Some (x, q) =>
                              match strip ")" q with Some q' => Some (real_un inf sp u x, q') | None => None end
                          | _, _ => None end
              | None => Some (rho n, r)
              end
          end end end end end end
      end
  end%R.

Notation P := parse.
Definition run (k : lvl) (s : string) (v : R * string) : Prop := exists f0, forall f, f0 <= f -> P f k s = Some v.

Lemma run_det k s v w : run k s v -> run k s w -> v = w.
Proof.
  intros [f1 H1] [f2 H2]. specialize (H1 (f1 + f2) ltac:(lia)). specialize (H2 (f1 + f2) ltac:(lia)).
  congruence.
Qed.

Ltac go n := exists n; intros [|f] L; [lia|]; cbn [parse].

Lemma run_sum s x r v : run LProd s (x, r) -> run (LSums x) r v -> run LSum s v.
Proof. intros [f1 H1] [f2 H2]; go (S (f1 + f2)). rewrite H1 by lia. apply H2; lia. Qed.
Lemma run_plus x s y r v : run LProd s (y, r) -> run (LSums (x + y)) r v -> run (LSums x) (" + " ++ s) v.
Proof. intros [f1 H1] [f2 H2]; go (S (f1 + f2)). rewrite strip_app, H1 by lia. apply H2; lia. Qed.
Lemma run_minus x s y r v : run LProd s (y, r) -> run (LSums (x - y)) r v -> run (LSums x) (" - " ++ s) v.
Proof.
  intros [f1 H1] [f2 H2]; go (S (f1 + f2)).
  replace (strip " + " (" - " ++ s)) with (@None string) by reflexivity.
  rewrite strip_app, H1 by lia. apply H2; lia.
Qed.
Ltac each_follow :=
  repeat match goal with
  | H : In _ (_ :: _) |- _ => destruct H as [<-|H]
  | H : In _ [] |- _ => destruct H
  end.
Lemma run_sums x r : follow F0 r -> run (LSums x) r (x, r).
Proof.
  intros [->|(t & q & I & ->)]; go 1; [reflexivity|].
  unfold F0 in I; each_follow; reflexivity.
Qed.
Lemma run_prod s x r v : run LSigned s (x, r) -> run (LProds x) r v -> run LProd s v.
Proof. intros [f1 H1] [f2 H2]; go (S (f1 + f2)). rewrite H1 by lia. apply H2; lia. Qed.
Lemma run_times o x s y r v : In o [" ∘ "; " ⊗ "; " : "] ->
  run LSigned s (y, r) -> run (LProds (x * y)) r v -> run (LProds x) (o ++ s) v.
Proof.
  intros I [f1 H1] [f2 H2]; go (S (f1 + f2)).
  specialize (H1 f ltac:(lia)); specialize (H2 f ltac:(lia)).
  each_follow; cbn [append strip Ascii.eqb Bool.eqb]; rewrite H1; exact H2.
Qed.
Lemma run_over o x s y r v : In o [" / "; "/"] ->
  (o = "/" -> stops (fun a => Ascii.eqb a " ") s) ->
  run LSigned s (y, r) -> run (LProds (x / y)) r v -> run (LProds x) (o ++ s) v.
Proof.
  intros I N [f1 H1] [f2 H2]; go (S (f1 + f2)).
  specialize (H1 f ltac:(lia)); specialize (H2 f ltac:(lia)).
  each_follow; cbn [append strip Ascii.eqb Bool.eqb]; rewrite H1; exact H2.
Qed.
Lemma run_prods x r : follow F1 r -> run (LProds x) r (x, r).
Proof.
  intros [->|(t & q & I & ->)]; go 1; [reflexivity|].
  unfold F1, F0 in I; cbn [app] in I; each_follow; reflexivity.
Qed.
Lemma run_neg s x r : run LSigned s (x, r) -> run LSigned ("-" ++ s) ((- x)%R, r).
Proof. intros [f1 H1]; go (S f1). rewrite strip_app, H1 by lia; reflexivity. Qed.
Lemma run_signed s v : strip "-" s = None -> run LPow s v -> run LSigned s v.
Proof. intros N [f1 H1]; go (S f1). rewrite N; apply H1; lia. Qed.
Lemma run_pow s x r : follow F2 r -> run LAtom s (x, r) -> run LPow s (x, r).
Proof.
  intros W [f1 H1]; go (S f1). rewrite H1 by lia.
  destruct W as [->|(t & q & I & ->)]; [reflexivity|].
  unfold F2, F1, F0 in I; cbn [app] in I; each_follow; reflexivity.
Qed.
Lemma run_raised s x t y r : run LAtom s (x, "^" ++ t) -> run LSigned t (y, r) -> run LPow s (R_pow x y, r).
Proof. intros [f1 H1] [f2 H2]; go (S (f1 + f2)). rewrite H1, strip_app, H2 by lia; reflexivity. Qed.

Lemma run_group s x r : run LSum s (x, ")" ++ r) -> run LAtom ("(" ++ s) (x, r).
Proof. intros [f1 H1]; go (S f1). rewrite strip_app, H1, strip_app by lia; reflexivity. Qed.
Lemma run_abs s x r : run LSum s (x, "|" ++ r) -> run LAtom ("|" ++ s) (Rabs x, r).
Proof.
  intros [f1 H1]; go (S f1). replace (strip "(" ("|" ++ s)) with (@None string) by reflexivity.
  rewrite strip_app, H1, strip_app by lia; reflexivity.
Qed.
Lemma run_inner s x t y r : run LSum s (x, ", " ++ t) -> run LSum t (y, "⟩" ++ r) ->
  run LAtom ("⟨" ++ s) ((x * y)%R, r).
Proof.
  intros [f1 H1] [f2 H2]; go (S (f1 + f2)). replace (strip "(" ("⟨" ++ s)) with (@None string) by reflexivity.
  replace (strip "|" ("⟨" ++ s)) with (@None string) by reflexivity.
  rewrite strip_app, H1, strip_app, H2, strip_app by lia; reflexivity.
Qed.
Lemma run_e r : run LAtom ("𝑒" ++ r) (exp 1, r).
Proof. go 1. reflexivity. Qed.

(** Names and numbers. *)
Lemma name_not a : name_byte a = true -> forall b, name_byte b = false -> Ascii.eqb b a = false.
Proof. intros N b M; destruct (Ascii.eqb b a) eqn:E; [|reflexivity]. apply Ascii.eqb_eq in E; congruence. Qed.
Lemma digit_name a : digit a = true -> name_byte a = true.
Proof. unfold digit, name_byte; cbv zeta; intros ->; reflexivity. Qed.

Lemma follow_stops L r : incl L F3 -> follow L r ->
  stops num_byte r /\ stops name_byte r /\ strip "(" r = None.
Proof.
  intros S [->|(t & q & I & ->)]; [cbn; auto|].
  apply S in I; unfold F3, F2, F1, F0 in I; cbn [app] in I; each_follow; cbn; auto.
Qed.

Lemma all_name_every s : all_name s = every name_byte s.
Proof. induction s; simpl; congruence. Qed.
Lemma digits_every s : digits_point s = true -> every num_byte s = true.
Proof.
  assert (D : forall q, all_digits q = true -> every num_byte q = true).
  { induction q; simpl; auto; unfold num_byte at 1; intro E; apply andb_prop in E as [-> E]; cbn; auto. }
  induction s as [|a s IH]; simpl; auto; unfold num_byte at 1. destruct (point a) eqn:Ep.
  - rewrite orb_true_r; apply D.
  - intro E; apply andb_prop in E as [-> E]; cbn; auto.
Qed.

Lemma run_number s r : is_number s = true -> follow F3 r -> run LAtom (s ++ r) (decimal s, r).
Proof.
  destruct s as [|a s]; [discriminate|]; intros N W; cbn [is_number] in N; apply andb_prop in N as [Da Dp].
  destruct (follow_stops F3 r (incl_refl _) W) as (S1 & S2 & S3).
  go 1. pose proof (name_not a (digit_name a Da)) as X.
  assert (St : forall b t, name_byte b = false -> strip (String b t) (String a s ++ r) = None).
  { intros b t Nb; cbn [append strip]; rewrite X; auto. }
  rewrite !St by reflexivity. rewrite span_app; auto. apply digits_every; exact Dp.
Qed.

Lemma span_name s r : is_name s = true -> stops name_byte r ->
  (forall b t, name_byte b = false -> strip (String b t) (s ++ r) = None) /\
  (exists q, span num_byte (s ++ r) = ("", q)) /\ span name_byte (s ++ r) = (s, r) /\ s <> "".
Proof.
  destruct s as [|a s]; [discriminate|]; cbn [is_name]; intros N S; apply andb_prop in N as [D N].
  pose proof N as N'; cbn [all_name] in N'; apply andb_prop in N' as [Na N'].
  repeat split.
  - intros b t Nb; cbn [append strip]; rewrite (name_not a Na); auto.
  - cbn [append span]. unfold num_byte. apply negb_true_iff in D; rewrite D.
    destruct (point a) eqn:Ep; [|cbn; eauto].
    unfold point in Ep; apply Ascii.eqb_eq in Ep; subst a; discriminate.
  - apply span_app; auto. rewrite <- all_name_every; exact N.
  - discriminate.
Qed.

Lemma run_name s r : is_name s = true -> follow F3 r -> run LAtom (s ++ r) (rho s, r).
Proof.
  intros N W. destruct (follow_stops F3 r (incl_refl _) W) as (S1 & S2 & S3).
  destruct (span_name s r N S2) as (St & (q & Q) & Sp & E).
  go 1. rewrite !St by reflexivity. rewrite Q, Sp. destruct s; [congruence|]. rewrite S3; reflexivity.
Qed.

Lemma functions_ok g u : In (g, u) functions -> fn_of functions g = Some u /\ is_name g = true.
Proof.
  unfold functions; intro I.
  repeat match goal with
         | H : In _ (_ :: _) |- _ => destruct H as [H|H]; [injection H as <- <-; split; reflexivity|]
         end.
  destruct I.
Qed.

Lemma run_call g u s x r : In (g, u) functions -> run LSum s (x, ")" ++ r) ->
  run LAtom (g ++ "(" ++ s) (real_un inf sp u x, r).
Proof.
  intros I [f1 H1]. destruct (functions_ok g u I) as [Fn N].
  destruct (span_name g ("(" ++ s) N) as (St & (q & Q) & Sp & E); [reflexivity|].
  go (S f1). rewrite !St by reflexivity. rewrite Q, Sp. destruct g; [congruence|].
  rewrite strip_app, Fn, H1, strip_app by lia; reflexivity.
Qed.

(** First bytes. *)
Definition operand_start (s : string) : Prop :=
  match s with EmptyString => False | String a _ => Ascii.eqb a " " = false end.
Definition atom_start (s : string) : Prop :=
  match s with EmptyString => False | String a _ => Ascii.eqb a " " = false /\ Ascii.eqb a "-" = false end.
Lemma start_app s r : operand_start s -> operand_start (s ++ r).
Proof. destruct s; simpl; tauto. Qed.
Lemma astart_app s r : atom_start s -> atom_start (s ++ r).
Proof. destruct s; simpl; tauto. Qed.
Lemma name_start s : is_name s = true -> atom_start s.
Proof.
  destruct s as [|a s]; [discriminate|]; cbn [is_name all_name]; intro N; apply andb_prop in N as [_ N].
  apply andb_prop in N as [N _]; split; rewrite Ascii.eqb_sym; apply (name_not a N); reflexivity.
Qed.
Lemma number_start s : is_number s = true -> atom_start s.
Proof.
  destruct s as [|a s]; [discriminate|]; cbn [is_number]; intro N; apply andb_prop in N as [N _].
  apply digit_name in N; split; rewrite Ascii.eqb_sym; apply (name_not a N); reflexivity.
Qed.

Scheme sum_ind' := Induction for sum_reads Sort Prop
with product_ind' := Induction for product_reads Sort Prop
with signed_ind' := Induction for signed_reads Sort Prop
with power_ind' := Induction for power_reads Sort Prop
with atom_ind' := Induction for atom_reads Sort Prop.
Combined Scheme reads_ind from sum_ind', product_ind', signed_ind', power_ind', atom_ind'.

Lemma starts :
  (forall x s, sum_reads inf sp rho x s -> True) /\
  (forall x s, product_reads inf sp rho x s -> True) /\
  (forall x s, signed_reads inf sp rho x s -> operand_start s) /\
  (forall x s, power_reads inf sp rho x s -> atom_start s) /\
  (forall x s, atom_reads inf sp rho x s -> atom_start s).
Proof.
  apply reads_ind; auto; intros.
  - destruct s as [|a s]; simpl in *; tauto.
  - reflexivity.
  - apply astart_app; auto.
  - apply name_start; auto.
  - apply number_start; auto.
  - split; reflexivity.
  - split; reflexivity.
  - apply astart_app, name_start. eapply functions_ok; eauto.
  - split; reflexivity.
  - split; reflexivity.
Qed.

Lemma complete :
  (forall x s, sum_reads inf sp rho x s -> forall r v, follow F1 r -> run (LSums x) r v -> run LSum (s ++ r) v) /\
  (forall x s, product_reads inf sp rho x s -> forall r v, follow F2 r -> run (LProds x) r v -> run LProd (s ++ r) v) /\
  (forall x s, signed_reads inf sp rho x s -> forall r, follow F2 r -> run LSigned (s ++ r) (x, r)) /\
  (forall x s, power_reads inf sp rho x s -> forall r, follow F2 r -> run LPow (s ++ r) (x, r)) /\
  (forall x s, atom_reads inf sp rho x s -> forall r, follow F3 r -> run LAtom (s ++ r) (x, r)).
Proof.
  assert (I1 : forall t, In t F1 -> In t F2) by (intros; apply in_or_app; auto).
  apply reads_ind; intros; rewrite ?app_assoc_s.
  - eapply run_sum; [|eassumption]. apply H; [apply follow_le; auto|apply run_prods; auto].
  - apply H; [apply follow_in; unfold F1, F0; cbn; tauto|].
    eapply run_plus; [|eassumption]. apply H0; [apply follow_le; auto|apply run_prods; auto].
  - apply H; [apply follow_in; unfold F1, F0; cbn; tauto|].
    eapply run_minus; [|eassumption]. apply H0; [apply follow_le; auto|apply run_prods; auto].
  - eapply run_prod; [|eassumption]. apply H; auto.
  - apply H; [apply follow_in; apply in_or_app; right; cbn in *; tauto|].
    eapply run_times; eauto.
  - apply H; [apply follow_in; apply in_or_app; right; cbn in *; tauto|].
    eapply run_over; eauto. intros _.
    match goal with Q : signed_reads _ _ _ _ _ |- _ => apply (proj1 (proj2 (proj2 starts))) in Q; revert Q end.
    destruct t; simpl; tauto.
  - apply run_signed; [|apply H; auto].
    match goal with Q : power_reads _ _ _ _ _ |- _ => apply (proj1 (proj2 (proj2 (proj2 starts)))) in Q; revert Q end.
    destruct s as [|a s]; cbn [atom_start append strip]; [tauto|]. intros [_ E]. rewrite Ascii.eqb_sym in E; rewrite E; reflexivity.
  - apply run_neg; auto.
  - apply run_pow; auto. apply H. apply follow_le; auto.
  - eapply run_raised; [apply H|apply H0; auto]. apply follow_in; apply in_or_app; right; cbn; auto.
  - apply run_name; auto.
  - apply run_number; auto.
  - apply run_e.
  - apply run_group. apply H; [apply follow_in; unfold F1, F0; cbn; tauto|].
    apply run_sums, follow_in; unfold F0; cbn; auto.
  - eapply run_call; eauto. apply H; [apply follow_in; unfold F1, F0; cbn; tauto|].
    apply run_sums, follow_in; unfold F0; cbn; auto.
  - apply run_abs. apply H; [apply follow_in; unfold F1, F0; cbn; tauto|].
    apply run_sums, follow_in; unfold F0; cbn; auto.
  - apply (run_inner _ x (t ++ "⟩" ++ r) y).
    + apply H; [apply (follow_in F1 ", ")|apply run_sums, (follow_in F0 ", ")]; unfold F1, F0; cbn; auto.
    + apply H0; [apply (follow_in F1 "⟩")|apply run_sums, (follow_in F0 "⟩")]; unfold F1, F0; cbn; auto.
Qed.

Lemma one_reading x y s : sum_reads inf sp rho x s -> sum_reads inf sp rho y s -> x = y.
Proof.
  intros A B. assert (run LSum (s ++ "") (x, "")) as RA.
  { apply (proj1 complete x s A); [left; auto|apply run_sums; left; auto]. }
  assert (run LSum (s ++ "") (y, "")) as RB.
  { apply (proj1 complete y s B); [left; auto|apply run_sums; left; auto]. }
  pose proof (run_det _ _ _ _ RA RB) as E; congruence.
Qed.
End Parse.
