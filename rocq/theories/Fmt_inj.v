(** Rendering of trees over variables is unambiguous: a parser for the text, used only in proofs. *)
From Coq Require Import List Arith Bool String Ascii ZArith Lia.
Import ListNotations.
From Verif Require Import Base Shapes Scalar Buffers Spec Contraction Node Eval Instances
  Fmt Fmt_math Math_claims Fmt_claims.
Local Open Scope string_scope.

(** * Parse trees *)
Inductive bop := bPow | bAdd | bSub | bMul | bDiv | bOut | bDot | bDdot.
Inductive ptree := PV (s : string) | PU (u : unop) (t : ptree) | PB (b : bop) (l r : ptree).

Definition fname (u : unop) : string :=
  match u with
  | Dirac => "δ" | Sign => "sgn" | Ln => "ln" | Sigmoid => "σ" | Gamma => "Γ" | DiGamma => "ψ"
  | LogGamma => "lnΓ" | Erf => "erf" | Cos => "cos" | Cosh => "cosh" | ArcCos => "acos"
  | ArcCosh => "acosh" | Sin => "sin" | Sinh => "sinh" | ArcSinh => "asinh"
  | Tan => "tan" | Tanh => "tanh" | ArcTan => "atan" | ArcTanh => "atanh"
  | _ => ""
  end.
Definition bname (b : bop) : string :=
  match b with
  | bAdd => " + " | bSub => " - " | bMul => " ∘ " | bDiv => " / " | bOut => " ⊗ " | bDdot => " : "
  | _ => ""
  end.

Definition pwrap (t : ptree) : bool :=
  match t with
  | PV _ => false
  | PU SubOne _ | PU OneSub _ => true
  | PU _ _ => false
  | PB bPow _ _ | PB bDot _ _ => false
  | PB _ _ _ => true
  end.
Definition par (b : bool) (s : string) : string := if b then "(" ++ s ++ ")" else s.

Fixpoint T (t : ptree) : string :=
  match t with
  | PV s => s
  | PU u t =>
      let w := par (pwrap t) (T t) in
      match u with
      | SubOne => w ++ " - 1"
      | OneSub => "1 - " ++ w
      | Square => "(" ++ w ++ ")^2"
      | Double => "2 ∘ " ++ w
      | Negate => "-" ++ w
      | Abs => "|" ++ T t ++ "|"
      | Exp => "𝑒^" ++ w
      | _ => fname u ++ "(" ++ T t ++ ")"
      end
  | PB b l r =>
      let wl := par (pwrap l) (T l) in
      let wr := par (pwrap r) (T r) in
      match b with
      | bPow => wl ++ "^" ++ wr
      | bDot => "⟨" ++ wl ++ ", " ++ wr ++ "⟩"
      | _ => wl ++ bname b ++ wr
      end
  end.
Definition W (t : ptree) : string := par (pwrap t) (T t).

Definition popen (t : ptree) : bool :=
  match t with
  | PB bPow _ _ | PU Negate _ | PU Double _ | PU Exp _ => true
  | _ => false
  end.
Fixpoint pclear (t : ptree) : Prop :=
  match t with
  | PV s => is_name s = true
  | PU u t => pclear t /\ match u with AddOne | Rabbit | XLnX | ArcSin => False | _ => True end
  | PB bPow l r => pclear l /\ pclear r /\ popen l = false
  | PB _ l r => pclear l /\ pclear r
  end.
Fixpoint h (t : ptree) : nat :=
  match t with PV _ => 1 | PU _ t => S (h t) | PB _ l r => S (Nat.max (h l) (h r)) end.

(** * The parser *)
Fixpoint strip (p s : string) : option string :=
  match p, s with
  | EmptyString, _ => Some s
  | String a p', String b s' => if Ascii.eqb a b then strip p' s' else None
  | _, EmptyString => None
  end.
Fixpoint span (s : string) : string * string :=
  match s with
  | EmptyString => ("", "")
  | String a s' => if name_byte a then let (x, y) := span s' in (String a x, y) else ("", s)
  end.
Definition fn_of (s : string) : option unop :=
  find (fun u => String.eqb s (fname u))
    [Dirac; Sign; Ln; Sigmoid; Gamma; DiGamma; LogGamma; Erf; Cos; Cosh; ArcCos; ArcCosh; Sin; Sinh;
     ArcSinh; Tan; Tanh; ArcTan; ArcTanh].
Fixpoint find_op (l : list bop) (s : string) : option (bop * string) :=
  match l with
  | [] => None
  | b :: l' => match strip (bname b) s with Some r => Some (b, r) | None => find_op l' s end
  end.
Definition ops := [bAdd; bSub; bMul; bDiv; bOut; bDdot].

Fixpoint operand (f : nat) (s : string) : option (ptree * string) :=
  match f with
  | 0 => None
  | S f =>
      match strip "-" s with
      | Some r => option_map (fun p => (PU Negate (fst p), snd p)) (operand f r)
      | None =>
      match strip "2 ∘ " s with
      | Some r => option_map (fun p => (PU Double (fst p), snd p)) (operand f r)
      | None =>
      match strip "𝑒^" s with
      | Some r => option_map (fun p => (PU Exp (fst p), snd p)) (operand f r)
      | None =>
      match atom f s with
      | None => None
      | Some (t, r) =>
          match strip "^" r with
          | None => Some (t, r)
          | Some r => option_map (fun p => (PB bPow t (fst p), snd p)) (operand f r)
          end
      end end end end
  end
with atom (f : nat) (s : string) : option (ptree * string) :=
  match f with
  | 0 => None
  | S f =>
      match strip "|" s with
      | Some r =>
          match full f r with
          | Some (t, _, r) => option_map (fun r => (PU Abs t, r)) (strip "|" r)
          | None => None
          end
      | None =>
      match strip "⟨" s with
      | Some r =>
          match operand f r with
          | Some (a, r) =>
              match strip ", " r with
              | Some r =>
                  match operand f r with
                  | Some (b, r) => option_map (fun r => (PB bDot a b, r)) (strip "⟩" r)
                  | None => None
                  end
              | None => None
              end
          | None => None
          end
      | None =>
      match strip "(" s with
      | Some r =>
          match full f r with
          | Some (t, true, r) => option_map (fun r => (t, r)) (strip ")" r)
          | Some (t, false, r) => option_map (fun r => (PU Square t, r)) (strip ")^2" r)
          | None => None
          end
      | None =>
          let (nm, r) := span s in
          match strip "(" r with
          | Some r =>
              match full f r, fn_of nm with
              | Some (t, _, r), Some u => option_map (fun r => (PU u t, r)) (strip ")" r)
              | _, _ => None
              end
          | None => Some (PV nm, r)
          end
      end end end
  end
with full (f : nat) (s : string) : option (ptree * bool * string) :=
  match f with
  | 0 => None
  | S f =>
      match strip "1 - " s with
      | Some r => option_map (fun p => (PU OneSub (fst p), true, snd p)) (operand f r)
      | None =>
      match operand f s with
      | None => None
      | Some (t, r) =>
          match strip " - 1" r with
          | Some r => Some (PU SubOne t, true, r)
          | None =>
          match find_op ops r with
          | Some (b, r) => option_map (fun p => (PB b t (fst p), true, snd p)) (operand f r)
          | None => Some (t, false, r)
          end end
      end end
  end.

(** * Facts about strings *)
Lemma strip_app p s : strip p (p ++ s) = Some s.
Proof. induction p; simpl; auto; rewrite Ascii.eqb_refl; auto. Qed.

Definition head_not (P : ascii -> bool) (s : string) : Prop :=
  match s with EmptyString => True | String a _ => P a = false end.
Lemma strip_head a p s : head_not (Ascii.eqb a) s -> strip (String a p) s = None.
Proof. destruct s; simpl; auto; intros ->; auto. Qed.
Lemma head_not_app P s r : s <> "" -> head_not P s -> head_not P (s ++ r).
Proof. destruct s; simpl; auto; congruence. Qed.

Lemma span_app s r : all_name s = true -> head_not name_byte r -> span (s ++ r) = (s, r).
Proof.
  induction s as [|a s IH]; simpl; intros H Hr.
  - destruct r; auto; simpl in *; rewrite Hr; auto.
  - apply andb_true_iff in H as [H1 H2]; rewrite H1, IH; auto.
Qed.

Lemma eqb_byte a b : name_byte a = false -> name_byte b = true -> Ascii.eqb a b = false.
Proof. intros A B; destruct (Ascii.eqb_spec a b); auto; congruence. Qed.
Lemma eqb_digit a b : digit a = true -> digit b = false -> Ascii.eqb a b = false.
Proof. intros A B; destruct (Ascii.eqb_spec a b); auto; congruence. Qed.

(** A name followed by anything does not start with a sign. *)
Lemma name_head s : is_name s = true ->
  exists a s', s = String a s' /\ name_byte a = true /\ digit a = false /\ all_name s' = true.
Proof.
  destruct s as [|a s]; simpl; [discriminate|].
  rewrite !andb_true_iff, negb_true_iff; intros (A & B & C); eauto 6.
Qed.
Lemma name_sign s r a p : is_name s = true -> name_byte a = false \/ digit a = true ->
  strip (String a p) (s ++ r) = None.
Proof.
  intros H A; apply name_head in H as (b & s' & -> & B & D & _); simpl.
  destruct A as [A|A]; [rewrite eqb_byte|rewrite eqb_digit]; auto.
Qed.
Lemma name_all s : is_name s = true -> all_name s = true.
Proof. destruct s; simpl; [discriminate|]; rewrite andb_true_iff; tauto. Qed.

Lemma fn_name u : fname u <> "" -> is_name (fname u) = true /\ fn_of (fname u) = Some u.
Proof. destruct u; try (intro H; exfalso; apply H; reflexivity); intros _; split; vm_compute; reflexivity. Qed.

Lemma atom_name f nm r : is_name nm = true -> head_not name_byte r ->
  atom (S f) (nm ++ r) =
  match strip "(" r with
  | Some r =>
      match full f r, fn_of nm with
      | Some (t, _, r), Some u => option_map (fun r => (PU u t, r)) (strip ")" r)
      | _, _ => None
      end
  | None => Some (PV nm, r)
  end.
Proof.
  intros N Hr; cbn [atom].
  rewrite !(name_sign nm r) by (auto; left; reflexivity).
  rewrite span_app; auto using name_all.
Qed.

(** What may follow an operand, an atom, a full text. *)
Definition okA (r : string) : Prop := head_not name_byte r /\ head_not (Ascii.eqb "(") r.
Definition okO (r : string) : Prop := okA r /\ head_not (Ascii.eqb "^") r.
Definition okF (r : string) : Prop := okO r /\ head_not (Ascii.eqb " ") r.

(** First bytes. *)
Definition starts (s : string) : Prop := s <> "" /\ head_not (Ascii.eqb "1") s.
Lemma starts_app s r : starts s -> starts (s ++ r).
Proof. intros [A B]; split; [destruct s; simpl; congruence|apply head_not_app; auto]. Qed.
Lemma starts_strip s r p : starts s -> strip (String "1" p) (s ++ r) = None.
Proof. intros [A B]; apply strip_head, head_not_app; auto. Qed.

Lemma W_starts t : pclear t -> starts (W t).
Proof.
  induction t as [s|u t IH|b l IHl r IHr]; intro C.
  - unfold W; simpl; apply name_head in C as (a & s' & -> & B & D & _); split; [discriminate|].
    apply eqb_digit; auto.
  - destruct C as [C Hu]; destruct u; try contradiction;
      (split; [discriminate|reflexivity]).
  - assert (Cl : pclear l) by (destruct b; apply C).
    destruct b; try (split; [discriminate|reflexivity]).
    unfold W; cbn [T pwrap par]; apply (starts_app (W l)); auto.
Qed.

(** An atom does not start with a sign of [operand]. *)
Definition quiet (s : string) : Prop :=
  forall r, strip "-" (s ++ r) = None /\ strip "2 ∘ " (s ++ r) = None /\ strip "𝑒^" (s ++ r) = None.
Lemma quiet_name s x : is_name s = true -> quiet (s ++ x).
Proof.
  intros N r; rewrite app_assoc_s; repeat split; apply name_sign; auto;
    solve [left; reflexivity | right; reflexivity].
Qed.
Lemma W_quiet t : pclear t -> popen t = false -> quiet (W t).
Proof.
  intros C O; destruct t as [s|u t|b l r].
  - rewrite <- (app_nil_s (W (PV s))); apply quiet_name; auto.
  - destruct C as [C Hu]; destruct u; try contradiction; try discriminate;
      try (unfold W; cbn [T pwrap par]; apply quiet_name; reflexivity);
      intro x; repeat split.
  - destruct b; try discriminate; intro x; repeat split.
Qed.

(** * Correctness of the parser *)
Definition good (t : ptree) : Prop :=
  (forall f r, 4 * h t <= f -> okO r -> operand f (W t ++ r) = Some (t, r)) /\
  (popen t = false -> forall f r, 4 * h t - 1 <= f -> okA r -> atom f (W t ++ r) = Some (t, r)) /\
  (pwrap t = true -> forall f r, 4 * h t - 2 <= f -> okF r -> full f (T t ++ r) = Some (t, true, r)).

Lemma h_pos t : 1 <= h t.
Proof. destruct t; simpl; lia. Qed.

(** An operand on its own is a full text. *)
Lemma full_operand t f r : pclear t ->
  (forall f r, 4 * h t <= f -> okO r -> operand f (W t ++ r) = Some (t, r)) ->
  4 * h t + 1 <= f -> okF r -> full f (W t ++ r) = Some (t, false, r).
Proof.
  intros C G Hf [Or Sr]; destruct f as [|f]; [lia|]; cbn [full].
  rewrite (starts_strip (W t)) by (apply W_starts; auto).
  rewrite G by (auto; lia).
  rewrite (strip_head " ") by auto.
  assert (E : find_op ops r = None).
  { unfold ops; cbn [find_op bname]; rewrite !(strip_head " ") by auto; reflexivity. }
  rewrite E; reflexivity.
Qed.

(** The text of a tree is a full text. *)
Lemma full_T t f r : pclear t -> good t -> 4 * h t + 1 <= f -> okF r ->
  exists b, full f (T t ++ r) = Some (t, b, r).
Proof.
  intros C (G1 & _ & G3) Hf Or; destruct (pwrap t) eqn:E.
  - exists true; apply G3; auto; lia.
  - exists false; replace (T t) with (W t) by (unfold W; rewrite E; reflexivity).
    apply full_operand; auto.
Qed.

(** From atoms to operands. *)
Lemma operand_atom t : pclear t -> popen t = false ->
  (forall f r, 4 * h t - 1 <= f -> okA r -> atom f (W t ++ r) = Some (t, r)) ->
  forall f r, 4 * h t <= f -> okO r -> operand f (W t ++ r) = Some (t, r).
Proof.
  intros C O A f r Hf [Ar Pr]; pose proof (h_pos t); destruct f as [|f]; [lia|]; cbn [operand].
  destruct (W_quiet t C O r) as (-> & -> & ->).
  rewrite A by (auto; lia); rewrite (strip_head "^") by auto; reflexivity.
Qed.

(** Wrapped trees are atoms. *)
Lemma atom_wrapped t : pwrap t = true ->
  (forall f r, 4 * h t - 2 <= f -> okF r -> full f (T t ++ r) = Some (t, true, r)) ->
  forall f r, 4 * h t - 1 <= f -> okA r -> atom f (W t ++ r) = Some (t, r).
Proof.
  intros Hw G f r Hf _; pose proof (h_pos t); destruct f as [|f]; [lia|].
  unfold W; rewrite Hw; unfold par; rewrite !app_assoc_s.
  change (match full f (T t ++ ")" ++ r) with
          | Some (t, true, r) => option_map (fun r => (t, r)) (strip ")" r)
          | Some (t, false, r) => option_map (fun r => (PU Square t, r)) (strip ")^2" r)
          | None => None
          end = Some (t, r)).
  rewrite G by (try lia; repeat split; reflexivity); rewrite strip_app; reflexivity.
Qed.

Lemma good_wrapped t : pclear t -> pwrap t = true -> popen t = false ->
  (forall f r, 4 * h t - 2 <= f -> okF r -> full f (T t ++ r) = Some (t, true, r)) -> good t.
Proof.
  intros C Hw O G; pose proof (atom_wrapped t Hw G) as A.
  split; [|split]; auto; apply operand_atom; auto.
Qed.
Lemma good_atom t : pclear t -> pwrap t = false -> popen t = false ->
  (forall f r, 4 * h t - 1 <= f -> okA r -> atom f (W t ++ r) = Some (t, r)) -> good t.
Proof.
  intros C Hw O A; split; [|split]; auto; [apply operand_atom; auto|congruence].
Qed.
Lemma good_open t : pwrap t = false -> popen t = true ->
  (forall f r, 4 * h t <= f -> okO r -> operand f (W t ++ r) = Some (t, r)) -> good t.
Proof. intros Hw O A; split; [|split]; auto; congruence. Qed.

Lemma find_bname b s : In b ops -> starts s ->
  strip " - 1" (bname b ++ s) = None /\ find_op ops (bname b ++ s) = Some (b, s).
Proof.
  intros I [N H]; destruct s as [|a s]; [congruence|]; simpl in H.
  destruct b; simpl in I; try (exfalso; intuition discriminate); split; try reflexivity.
  simpl; rewrite H; reflexivity.
Qed.

Ltac ok := repeat split; reflexivity.

Lemma good_function u t : pclear t -> good t -> fname u <> "" ->
  T (PU u t) = fname u ++ "(" ++ T t ++ ")" -> pwrap (PU u t) = false -> popen (PU u t) = false ->
  pclear (PU u t) -> good (PU u t).
Proof.
  intros Ct Gt Nu E Hw O C; apply good_atom; auto.
  intros f r Hf Or; pose proof (h_pos t); cbn [h] in Hf; destruct f as [|f]; [lia|].
  destruct (fn_name u Nu) as [N1 N2].
  unfold W; rewrite Hw; cbn [par]; rewrite E, !app_assoc_s.
  rewrite atom_name by (auto; reflexivity); rewrite strip_app.
  destruct (full_T t f (")" ++ r) Ct Gt) as [b ->]; [lia|ok|].
  rewrite N2, strip_app; reflexivity.
Qed.

Lemma good_binary b l r : In b ops -> pclear l -> pclear r -> good l -> good r -> good (PB b l r).
Proof.
  intros I Cl Cr (Gl & _) (Gr & _).
  assert (E : T (PB b l r) = W l ++ bname b ++ W r) by
    (destruct b; simpl in I; try (exfalso; intuition discriminate); reflexivity).
  apply good_wrapped.
  - destruct b; simpl in I; try (exfalso; intuition discriminate); split; auto.
  - destruct b; simpl in I; try (exfalso; intuition discriminate); auto.
  - destruct b; simpl in I; try (exfalso; intuition discriminate); auto.
  - intros f x Hf [Ox Sx]; cbn [h] in Hf; destruct f as [|f]; [lia|]; rewrite E, !app_assoc_s; cbn [full].
    rewrite starts_strip by (apply W_starts; auto).
    rewrite Gl; [|lia|destruct b; simpl in I; try (exfalso; intuition discriminate); ok].
    destruct (find_bname b (W r ++ x) I) as [-> ->]; [apply starts_app, W_starts; auto|].
    rewrite Gr by (auto; lia); reflexivity.
Qed.

Lemma parse_good t : pclear t -> good t.
Proof.
  induction t as [s|u t IH|b l IHl r IHr]; intro C.
  - apply good_atom; auto; intros f r Hf [Or Pr]; cbn [h] in Hf; destruct f as [|f]; [lia|].
    unfold W; cbn [pwrap par T]; rewrite atom_name by auto.
    rewrite (strip_head "(") by auto; reflexivity.
  - pose proof C as [Ct Hu]; specialize (IH Ct); pose proof IH as (G1 & G2 & G3).
    pose proof (h_pos t).
    destruct u; try contradiction; try (apply good_function; auto; discriminate).
    + (* SubOne *) apply good_wrapped; auto; intros f r Hf [Or Sr]; cbn [h] in Hf; destruct f as [|f]; [lia|].
      change (T (PU SubOne t)) with (W t ++ " - 1"); rewrite app_assoc_s; cbn [full].
      rewrite starts_strip by (apply W_starts; auto).
      rewrite G1 by (try lia; ok); rewrite strip_app; reflexivity.
    + (* OneSub *) apply good_wrapped; auto; intros f r Hf [Or Sr]; cbn [h] in Hf; destruct f as [|f]; [lia|].
      change (T (PU OneSub t)) with ("1 - " ++ W t); rewrite app_assoc_s; cbn [full].
      rewrite strip_app, G1 by (auto; lia); reflexivity.
    + (* Square *) apply good_atom; auto; intros f r Hf [Or Sr]; cbn [h] in Hf; destruct f as [|f]; [lia|].
      change (W (PU Square t)) with ("(" ++ W t ++ ")^2"); rewrite !app_assoc_s.
      change (match full f (W t ++ ")^2" ++ r) with
              | Some (t, true, r) => option_map (fun r => (t, r)) (strip ")" r)
              | Some (t, false, r) => option_map (fun r => (PU Square t, r)) (strip ")^2" r)
              | None => None
              end = Some (PU Square t, r)).
      rewrite full_operand by (auto; try lia; ok); rewrite strip_app; reflexivity.
    + (* Double *) apply good_open; auto; intros f r Hf Or; cbn [h] in Hf; destruct f as [|f]; [lia|].
      change (W (PU Double t)) with ("2 ∘ " ++ W t); rewrite app_assoc_s.
      change (option_map (fun p => (PU Double (fst p), snd p)) (operand f (W t ++ r)) = Some (PU Double t, r)).
      rewrite G1 by (auto; lia); reflexivity.
    + (* Negate *) apply good_open; auto; intros f r Hf Or; cbn [h] in Hf; destruct f as [|f]; [lia|].
      change (W (PU Negate t)) with ("-" ++ W t); rewrite app_assoc_s.
      change (option_map (fun p => (PU Negate (fst p), snd p)) (operand f (W t ++ r)) = Some (PU Negate t, r)).
      rewrite G1 by (auto; lia); reflexivity.
    + (* Abs *) apply good_atom; auto; intros f r Hf [Or Sr]; cbn [h] in Hf; destruct f as [|f]; [lia|].
      change (W (PU Abs t)) with ("|" ++ T t ++ "|"); rewrite !app_assoc_s.
      change (match full f (T t ++ "|" ++ r) with
              | Some (t, _, r) => option_map (fun r => (PU Abs t, r)) (strip "|" r)
              | None => None
              end = Some (PU Abs t, r)).
      destruct (full_T t f ("|" ++ r) Ct IH) as [b ->]; [lia|ok|]; rewrite strip_app; reflexivity.
    + (* Exp *) apply good_open; auto; intros f r Hf Or; cbn [h] in Hf; destruct f as [|f]; [lia|].
      change (W (PU Exp t)) with ("𝑒^" ++ W t); rewrite app_assoc_s.
      change (option_map (fun p => (PU Exp (fst p), snd p)) (operand f (W t ++ r)) = Some (PU Exp t, r)).
      rewrite G1 by (auto; lia); reflexivity.
  - assert (Cl : pclear l) by (destruct b; apply C).
    assert (Cr : pclear r) by (destruct b; apply C).
    specialize (IHl Cl); specialize (IHr Cr).
    pose proof IHl as (L1 & L2 & L3); pose proof IHr as (R1 & R2 & R3).
    destruct b; try (apply good_binary; auto; simpl; tauto).
    + (* Pow *) destruct C as (_ & _ & Ol).
      apply good_open; auto; intros f x Hf Or; cbn [h] in Hf; destruct f as [|f]; [lia|].
      change (W (PB bPow l r)) with (W l ++ "^" ++ W r); rewrite !app_assoc_s; cbn [operand].
      destruct (W_quiet l Cl Ol ("^" ++ W r ++ x)) as (-> & -> & ->).
      rewrite L2 by (auto; try lia; ok); rewrite strip_app, R1 by (auto; lia); reflexivity.
    + (* Dot *) apply good_atom; auto; intros f x Hf Or; cbn [h] in Hf; destruct f as [|f]; [lia|].
      change (W (PB bDot l r)) with ("⟨" ++ W l ++ ", " ++ W r ++ "⟩"); rewrite !app_assoc_s.
      change (match operand f (W l ++ ", " ++ W r ++ "⟩" ++ x) with
          | Some (a, r) =>
              match strip ", " r with
              | Some r =>
                  match operand f r with
                  | Some (b, r) => option_map (fun r => (PB bDot a b, r)) (strip "⟩" r)
                  | None => None
                  end
              | None => None
              end
          | None => None
          end = Some (PB bDot l r, x)).
      rewrite L1 by (try lia; ok); rewrite strip_app.
      rewrite R1 by (try lia; ok); rewrite strip_app; reflexivity.
Qed.

Lemma T_inj t t' : pclear t -> pclear t' -> T t = T t' -> t = t'.
Proof.
  intros C C' E; set (f := 4 * Nat.max (h t) (h t') + 1).
  destruct (full_T t f "" C (parse_good t C)) as [b P]; [lia|ok|].
  destruct (full_T t' f "" C' (parse_good t' C')) as [b' P']; [lia|ok|].
  rewrite E in P; congruence.
Qed.

(** * Display of double contractions *)
Fixpoint DT (t : ptree) : string :=
  match t with
  | PB bDdot l r => "(" ++ DT l ++ ") : (" ++ DT r ++ ")"
  | _ => T t
  end.

Fixpoint scan (k : nat) (s : string) : option nat :=
  match s with
  | EmptyString => Some k
  | String a s' =>
      if Ascii.eqb a "(" then scan (S k) s'
      else if Ascii.eqb a ")" then match k with 0 => None | S k' => scan k' s' end
      else scan k s'
  end.
Definition bal (s : string) : Prop := forall k, scan k s = Some k.

Lemma scan_app a b k : scan k (a ++ b) = match scan k a with Some j => scan j b | None => None end.
Proof.
  revert k; induction a as [|x a IH]; intro k; auto; cbn [append scan].
  destruct (Ascii.eqb x "("); auto; destruct (Ascii.eqb x ")"); auto; destruct k; auto.
Qed.
Lemma bal_app a b : bal a -> bal b -> bal (a ++ b).
Proof. intros A B k; rewrite scan_app, A, B; auto. Qed.
Lemma bal_par s : bal s -> bal ("(" ++ s ++ ")").
Proof. intros B k; cbn [append scan Ascii.eqb]; rewrite scan_app; simpl; rewrite B; auto. Qed.
Lemma bal_name s : all_name s = true -> bal s.
Proof.
  induction s as [|a s IH]; intros H k; auto; cbn [all_name scan] in *.
  apply andb_true_iff in H as [H1 H2].
  destruct (Ascii.eqb_spec a "("); [subst; discriminate|].
  destruct (Ascii.eqb_spec a ")"); [subst; discriminate|apply IH; auto].
Qed.

Lemma cut a b k x y : scan k a = Some 0 -> scan k b = Some 0 ->
  a ++ ")" ++ x = b ++ ")" ++ y -> a = b /\ x = y.
Proof.
  revert b k; induction a as [|p a IH]; intros [|q b] k A B E.
  - injection E; auto.
  - exfalso; simpl in A; injection A as ->; injection E as <- _; discriminate.
  - exfalso; simpl in B; injection B as ->; injection E as -> _; discriminate.
  - cbn [append] in E; injection E as -> E; cbn [scan] in A, B.
    destruct (Ascii.eqb q "("); [destruct (IH b _ A B E); subst; auto|].
    destruct (Ascii.eqb q ")"); [destruct k; [discriminate|]|];
      destruct (IH b _ A B E); subst; auto.
Qed.

Lemma T_bal t : pclear t -> bal (T t) /\ bal (W t).
Proof.
  assert (P : forall w s, bal s -> bal (par w s)) by (intros [] s B; auto; apply bal_par; auto).
  induction t as [s|u t IH|b l IHl r IHr]; intro C.
  - split; apply bal_name, name_all; auto.
  - assert (B : bal (T (PU u t))); [|split; auto; apply P; auto].
    destruct C as [C Hu]; destruct (IH C) as [B1 B2]; unfold W in B2; destruct u; try contradiction; cbn [T];
      try (apply bal_app; [intro; reflexivity|apply bal_par; auto]);
      try (apply bal_app; [intro; reflexivity|auto]);
      try (apply bal_app; auto; intro; reflexivity).
    intro k; cbn [append scan Ascii.eqb]; rewrite scan_app; simpl; rewrite B2; auto.
  - assert (B : bal (T (PB b l r))); [|split; auto; apply P; auto].
    assert (Cl : pclear l) by (destruct b; apply C).
    assert (Cr : pclear r) by (destruct b; apply C).
    destruct (IHl Cl) as [_ Bl], (IHr Cr) as [_ Br]; unfold W in Bl, Br.
    destruct b; cbn [T]; repeat apply bal_app; auto; intro; reflexivity.
Qed.

Lemma DT_bal t : pclear t -> bal (DT t).
Proof.
  induction t as [s|u t IH|b l IHl r IHr]; intro C; try (apply T_bal; auto).
  destruct b; try (apply T_bal; auto).
  destruct C as [Cl Cr].
  change (bal ("(" ++ DT l ++ ") : (" ++ DT r ++ ")")).
  replace ("(" ++ DT l ++ ") : (" ++ DT r ++ ")") with
    (("(" ++ DT l ++ ")") ++ " : " ++ ("(" ++ DT r ++ ")")).
  - apply bal_app; [apply bal_par; auto|apply bal_app; [intro; reflexivity|apply bal_par; auto]].
  - rewrite !app_assoc_s; reflexivity.
Qed.

Lemma name_not_par s r x : is_name s = true -> s ++ r <> "(" ++ x.
Proof.
  intros N E; apply name_head in N as (a & s' & -> & B & _); injection E as -> _; discriminate.
Qed.

(** What follows the closing bracket that matches an opening bracket at the start. *)
Lemma lead t rest X Y : pclear t -> bal X -> W t ++ rest = "(" ++ X ++ ")" ++ Y ->
  (pwrap t = true /\ Y = rest) \/ exists z, Y = "^" ++ z.
Proof.
  revert rest; induction t as [s|u t IH|b l IHl r IHr]; intros rest C B E.
  - destruct (name_not_par s rest _ C E).
  - pose proof (proj1 (T_bal _ C)) as BT; destruct C as [C Hu]; pose proof (proj2 (T_bal _ C)) as BW.
    destruct u; try contradiction; try discriminate E.
    + left; split; auto; unfold W in E; cbn [pwrap par] in E; rewrite !app_assoc_s in E.
      apply app_inj_l in E; apply (cut _ _ 0) in E as [_ E]; auto.
    + left; split; auto; unfold W in E; cbn [pwrap par] in E; rewrite !app_assoc_s in E.
      apply app_inj_l in E; apply (cut _ _ 0) in E as [_ E]; auto.
    + right; exists ("2" ++ rest); change (W (PU Square t)) with ("(" ++ W t ++ ")" ++ "^2") in E.
      rewrite !app_assoc_s in E; apply app_inj_l in E; apply (cut _ _ 0) in E as [_ E]; auto.
  - pose proof (proj1 (T_bal _ C)) as BT.
    assert (Cl : pclear l) by (destruct b; apply C).
    destruct b; try discriminate E;
      try (left; split; auto; unfold W in E; cbn [pwrap par] in E; rewrite !app_assoc_s in E;
           apply app_inj_l in E; apply (cut _ _ 0) in E as [_ E]; solve [auto]).
    right; change (W (PB bPow l r)) with (W l ++ "^" ++ W r) in E; rewrite !app_assoc_s in E.
    destruct (IHl _ Cl B E) as [[_ ->]|[z ->]]; eauto.
Qed.

Definition root_ddot (t : ptree) : bool := match t with PB bDdot _ _ => true | _ => false end.

Lemma T_not_ddot t X Y : pclear t -> root_ddot t = false -> bal X -> T t <> "(" ++ X ++ ") : (" ++ Y.
Proof.
  intros C R B E.
  change (T t = "(" ++ X ++ ")" ++ " : (" ++ Y) in E.
  destruct t as [s|u t|b l r].
  - rewrite <- (app_nil_s (T (PV s))) in E; destruct (name_not_par s "" _ C E).
  - destruct C as [C Hu]; pose proof (proj2 (T_bal _ C)) as BW.
    destruct u; try contradiction; try discriminate E.
    + change (T (PU SubOne t)) with (W t ++ " - 1") in E.
      destruct (lead _ _ _ _ C B E) as [[_ L]|[z L]]; discriminate L.
    + change (T (PU Square t)) with ("(" ++ W t ++ ")^2") in E; apply app_inj_l in E.
      change (W t ++ ")" ++ "^2" = X ++ ")" ++ " : (" ++ Y) in E.
      apply (cut _ _ 0) in E as [_ E]; auto; discriminate E.
  - assert (Cl : pclear l) by (destruct b; apply C).
    destruct b; try discriminate; try discriminate E;
      (cbn [T] in E; fold (W l) in E;
       destruct (lead _ _ _ _ Cl B E) as [[_ L]|[z L]]; discriminate L).
Qed.

Lemma DT_T t : root_ddot t = false -> DT t = T t.
Proof. destruct t as [|u t|[] l r]; intro; try reflexivity; discriminate. Qed.

Lemma DT_inj t t' : pclear t -> pclear t' -> DT t = DT t' -> t = t'.
Proof.
  revert t'; induction t as [s|u t IH|b l IHl r IHr]; intros t' C C' E.
  - destruct (root_ddot t') eqn:R'.
    + destruct t' as [|?|[] l' r']; try discriminate; destruct C' as [Cl' Cr'].
      exfalso; eapply (T_not_ddot (PV s)); [exact C|reflexivity|exact (DT_bal l' Cl')|exact E].
    + rewrite (DT_T t' R') in E; apply T_inj; auto.
  - destruct (root_ddot t') eqn:R'.
    + destruct t' as [|?|[] l' r']; try discriminate; destruct C' as [Cl' Cr'].
      exfalso; eapply (T_not_ddot (PU u t)); [exact C|reflexivity|exact (DT_bal l' Cl')|exact E].
    + rewrite (DT_T t' R') in E; apply T_inj; auto.
  - destruct (root_ddot (PB b l r)) eqn:R, (root_ddot t') eqn:R'.
    + destruct b; try discriminate; destruct t' as [|?|[] l' r']; try discriminate.
      destruct C as [Cl Cr], C' as [Cl' Cr'].
      change ("(" ++ DT l ++ ")" ++ " : (" ++ DT r ++ ")" = "(" ++ DT l' ++ ")" ++ " : (" ++ DT r' ++ ")") in E.
      apply app_inj_l in E; apply (cut _ _ 0) in E as [E1 E2]; try apply DT_bal; auto.
      apply app_inj_l, app_inj_r in E2; f_equal; auto.
    + destruct b; try discriminate; destruct C as [Cl Cr]; rewrite (DT_T t' R') in E.
      exfalso; eapply (T_not_ddot t'); [exact C'|exact R'|exact (DT_bal l Cl)|symmetry; exact E].
    + rewrite (DT_T _ R) in E; destruct t' as [|?|[] l' r']; try discriminate; destruct C' as [Cl' Cr'].
      exfalso; eapply (T_not_ddot (PB b l r)); [exact C|exact R|exact (DT_bal l' Cl')|exact E].
    + rewrite (DT_T _ R), (DT_T t' R') in E; apply T_inj; auto.
Qed.

(** * Trees of nodes *)
Section Nodes.
Context {F : Type}.
Variables (sym : ident -> string) (show : F -> string).

Fixpoint tree (n : node F) : ptree :=
  match n with
  | Var i => PV (sym i)
  | Un u m => PU u (tree m)
  | Power l r => PB bPow (tree l) (tree r)
  | Add l r => PB bAdd (tree l) (tree r)
  | Sub l r => PB bSub (tree l) (tree r)
  | Mul l r => PB bMul (tree l) (tree r)
  | Div l r => PB bDiv (tree l) (tree r)
  | Contract 0 l r => PB bOut (tree l) (tree r)
  | Contract 1 l r => PB bDot (tree l) (tree r)
  | Contract _ l r => PB bDdot (tree l) (tree r)
  | _ => PV ""
  end.

Ltac bools := repeat match goal with H : (_ && _)%bool = true |- _ => apply andb_true_iff in H as [? H] end.

Lemma tree_clear n : (forall i, is_name (sym i) = true) -> clear n = true -> pclear (tree n).
Proof.
  intro N; induction n; cbn [clear tree]; intro C; try discriminate; bools.
  - apply N.
  - split; auto; destruct u; auto; discriminate.
  - split; [|split]; auto.
    destruct n1; auto; try (destruct u; auto); try discriminate.
    destruct axes as [|[|axes]]; auto.
  - split; auto.
  - split; auto.
  - split; auto.
  - split; auto.
  - destruct axes as [|[|axes]]; split; auto.
Qed.

Lemma tree_inj n m : (forall i j, sym i = sym j -> i = j) -> clear n = true -> clear m = true ->
  tree n = tree m -> n = m.
Proof.
  intro Hs; revert m.
  induction n as [i|i t|v|s|n IH t|n IH k|u n IH|n IH|l IHl r IHr|l IHl r IHr|l IHl r IHr|l IHl r IHr
                 |l IHl r IHr|a l IHl r IHr]; intros m C C' E; try discriminate C;
    destruct m as [i'|i' t'|v'|s'|n' t'|n' k'|u' n'|n'|l' r'|l' r'|l' r'|l' r'|l' r'|a' l' r'];
    try discriminate C'; cbn [clear] in C, C';
    try (destruct a as [|[|[|a]]]; [| | |discriminate C]);
    try (destruct a' as [|[|[|a']]]; [| | |discriminate C']);
    bools; cbn [tree] in E; try discriminate E; injection E; intros; subst; f_equal; auto.
Qed.

Lemma tree_text n : clear n = true ->
  to_expr sym show n = Some (XText (PW (T (tree n)) (pwrap (tree n)))).
Proof.
  induction n as [i|i t|v|s|n IH t|n IH k|u n IH|n IH|l IHl r IHr|l IHl r IHr|l IHl r IHr|l IHl r IHr
                 |l IHl r IHr|a l IHl r IHr]; cbn [clear]; intro C; try discriminate C;
    try (destruct a as [|[|[|a]]]; [| | |discriminate C]); bools; cbn [to_expr tree];
    rewrite ?IH, ?IHl, ?IHr by auto; try reflexivity.
  destruct u; try discriminate; reflexivity.
Qed.

Lemma display_text n : clear n = true -> display sym show n = Some (DT (tree n)).
Proof.
  induction n as [i|i t|v|s|n IH t|n IH k|u n IH|n IH|l IHl r IHr|l IHl r IHr|l IHl r IHr|l IHl r IHr
                 |l IHl r IHr|a l IHl r IHr]; intro C; try discriminate C;
    try (destruct a as [|[|[|a]]]; [| | |discriminate C]);
    try (cbn [display]; rewrite tree_text by auto; reflexivity); try reflexivity.
  cbn [clear] in C; bools; cbn [display tree DT]; rewrite IHl, IHr by auto; reflexivity.
Qed.

(** ** Sums *)
Lemma lead_sigma t rest Y : pclear t -> head_not name_byte rest ->
  W t ++ rest = "Σ_i " ++ Y -> rest = " " ++ Y.
Proof.
  revert rest; induction t as [s|u t IH|b l IHl r IHr]; intros rest C N E.
  - unfold W in E; cbn [pwrap par T] in E.
    assert (K : span ("Σ_i " ++ Y) = ("Σ_i", " " ++ Y)) by reflexivity.
    rewrite <- E, (span_app s rest (name_all s C) N) in K; congruence.
  - destruct C as [C Hu]; destruct u; try contradiction; discriminate E.
  - assert (Cl : pclear l) by (destruct b; apply C).
    destruct b; try discriminate E.
    change (W (PB bPow l r)) with (W l ++ "^" ++ W r) in E; rewrite !app_assoc_s in E.
    specialize (IHl ("^" ++ W r ++ rest) Cl eq_refl E); discriminate IHl.
Qed.

Lemma T_not_sigma t X : pclear t -> T t <> "Σ_i (" ++ X.
Proof.
  intros C E; change ("Σ_i (" ++ X) with ("Σ_i " ++ "(" ++ X) in E.
  destruct t as [s|u t|b l r].
  - rewrite <- (app_nil_s (T (PV s))) in E; discriminate (lead_sigma (PV s) "" _ C Logic.I E).
  - destruct C as [C Hu]; destruct u; try contradiction; try discriminate E.
    change (T (PU SubOne t)) with (W t ++ " - 1") in E.
    discriminate (lead_sigma t " - 1" _ C eq_refl E).
  - assert (Cl : pclear l) by (destruct b; apply C).
    destruct b; try discriminate E; cbn [T] in E; fold (W l) in E;
      match type of E with _ ++ ?x = _ => discriminate (lead_sigma l x _ Cl eq_refl E) end.
Qed.

Fixpoint NT (n : node F) : string :=
  match n with
  | Sum m => "Σ_i (" ++ NT m ++ ")_i"
  | Contract 2 l r => "(" ++ NT l ++ ") : (" ++ NT r ++ ")"
  | _ => T (tree n)
  end.

Definition inside (n : node F) : bool := match n with Sum _ | Contract 2 _ _ => false | _ => true end.

Lemma inside_NT (n : node F) : inside n = true -> NT n = T (tree n).
Proof. destruct n as [| | | | | | | | | | | | |[|[|[|a]]] l r]; intro; reflexivity || discriminate. Qed.
Lemma inside_clear (n : node F) : inside n = true -> shown n = true -> clear n = true.
Proof. destruct n as [| | | | | | | | | | | | |[|[|[|a]]] l r]; intro; auto; discriminate. Qed.
Lemma inside_root (n : node F) : inside n = true -> clear n = true -> root_ddot (tree n) = false.
Proof. destruct n as [| | | | | | | | | | | | |[|[|[|a]]] l r]; intros; auto; discriminate. Qed.

Lemma display_shown (n : node F) : shown n = true -> display sym show n = Some (NT n).
Proof.
  induction n as [i|i t|v|s|n IH t|n IH k|u n IH|n IH|l IHl r IHr|l IHl r IHr|l IHl r IHr|l IHl r IHr
                 |l IHl r IHr|a l IHl r IHr]; intro C; try discriminate C;
    try (destruct a as [|[|[|a]]]; [| | |discriminate C]);
    try (cbn [display]; rewrite tree_text by auto; reflexivity); try reflexivity.
  - cbn [display NT]; rewrite IH by auto; reflexivity.
  - cbn [shown] in C; bools; cbn [display NT]; rewrite IHl, IHr by auto; reflexivity.
Qed.

Lemma clear_shown (n : node F) : clear n = true -> shown n = true.
Proof.
  induction n as [i|i t|v|s|n IH t|n IH k|u n IH|n IH|l IHl r IHr|l IHl r IHr|l IHl r IHr|l IHl r IHr
                 |l IHl r IHr|a l IHl r IHr]; intro C; auto; try discriminate C.
  destruct a as [|[|[|a]]]; auto; cbn [clear] in C; bools; cbn [shown]; rewrite IHl, IHr; auto.
Qed.

Lemma NT_bal (n : node F) : (forall i, is_name (sym i) = true) -> shown n = true -> bal (NT n).
Proof.
  intro N; induction n as [i|i t|v|s|n IH t|n IH k|u n IH|n IH|l IHl r IHr|l IHl r IHr|l IHl r IHr|l IHl r IHr
                 |l IHl r IHr|a l IHl r IHr]; intro C; try discriminate C;
    try (destruct a as [|[|[|a]]]; [| | |discriminate C]);
    try (apply (T_bal (tree _)), tree_clear; auto).
  - change (NT (Sum n)) with ("Σ_i " ++ ("(" ++ NT n ++ ")_i")).
    replace ("(" ++ NT n ++ ")_i") with (("(" ++ NT n ++ ")") ++ "_i") by (rewrite !app_assoc_s; reflexivity).
    apply bal_app; [intro; reflexivity|apply bal_app; [apply bal_par; auto|intro; reflexivity]].
  - cbn [shown] in C; bools; change (NT (Contract 2 l r)) with ("(" ++ NT l ++ ") : (" ++ NT r ++ ")").
    replace ("(" ++ NT l ++ ") : (" ++ NT r ++ ")") with
      (("(" ++ NT l ++ ")") ++ " : " ++ ("(" ++ NT r ++ ")")) by (rewrite !app_assoc_s; reflexivity).
    apply bal_app; [apply bal_par; auto|apply bal_app; [intro; reflexivity|apply bal_par; auto]].
Qed.

Lemma NT_inj (n m : node F) : (forall i j, sym i = sym j -> i = j) -> (forall i, is_name (sym i) = true) ->
  shown n = true -> shown m = true -> NT n = NT m -> n = m.
Proof.
  intros Hs Hn.
  assert (Q : forall n m, inside n = true -> shown n = true -> shown m = true -> NT n = NT m -> n = m).
  { intros x y Ix Sx Sy E; assert (Cx := inside_clear x Ix Sx); rewrite (inside_NT x Ix) in E.
    assert (Px := tree_clear x Hn Cx).
    destruct (inside y) eqn:Iy.
    - assert (Cy := inside_clear y Iy Sy); rewrite (inside_NT y Iy) in E.
      apply tree_inj; auto; apply T_inj; auto using tree_clear.
    - exfalso; destruct y as [| | | | | | |y| | | | | |[|[|[|a]]] l r]; try discriminate Iy.
      + exact (T_not_sigma _ _ Px E).
      + cbn [shown] in Sy; bools.
        eapply (T_not_ddot (tree x)); [exact Px|apply inside_root; auto|apply (NT_bal l); auto|exact E]. }
  revert m; induction n as [i|i t|v|s|n IH t|n IH k|u n IH|n IH|l IHl r IHr|l IHl r IHr|l IHl r IHr|l IHl r IHr
                 |l IHl r IHr|a l IHl r IHr]; intros m C C' E;
    try (apply Q; auto; fail); destruct (inside m) eqn:Im;
    try (symmetry; apply Q; auto; fail);
    try (destruct a as [|[|[|a]]]; try (apply Q; auto; fail)).
  - destruct m as [| | | | | | |m| | | | | |[|[|[|a]]] l r]; try discriminate Im.
    + cbn [NT] in E; apply app_inj_l, app_inj_r in E; f_equal; auto.
    + discriminate E.
  - destruct m as [| | | | | | |m| | | | | |[|[|[|a]]] l' r']; try discriminate Im; [discriminate E|].
    cbn [shown] in C, C'; bools.
    change ("(" ++ NT l ++ ")" ++ " : (" ++ NT r ++ ")" = "(" ++ NT l' ++ ")" ++ " : (" ++ NT r' ++ ")") in E.
    apply app_inj_l in E; apply (cut _ _ 0) in E as [E1 E2]; try (apply (NT_bal _ Hn); auto; fail).
    apply app_inj_l, app_inj_r in E2; f_equal; auto.
Qed.

End Nodes.

Lemma text_injective : forall F sym (show : F -> string) (n m : node F),
  (forall i j, sym i = sym j -> i = j) -> (forall i, is_name (sym i) = true) ->
  clear n = true -> clear m = true ->
  (exists s, display sym show n = Some s) /\
  (option_map expr_display (to_expr sym show n) = option_map expr_display (to_expr sym show m) -> n = m) /\
  (display sym show n = display sym show m -> n = m).
Proof.
  intros F sym show n m Hs Hn Cn Cm; split; [rewrite display_text by auto; eauto|]; split; intro E.
  - rewrite !tree_text in E by auto; injection E as E.
    apply (tree_inj sym); auto; apply T_inj; auto using tree_clear.
  - rewrite !display_text in E by auto; injection E as E.
    apply (tree_inj sym); auto; apply DT_inj; auto using tree_clear.
Qed.

Lemma sums_injective : forall F sym (show : F -> string) (n m : node F),
  (forall i j, sym i = sym j -> i = j) -> (forall i, is_name (sym i) = true) ->
  shown n = true -> shown m = true ->
  (exists s, display sym show n = Some s) /\ (display sym show n = display sym show m -> n = m).
Proof.
  intros F sym show n m Hs Hn Cn Cm; rewrite !display_shown by auto; split; [eauto|].
  intro E; injection E as E; apply (NT_inj sym); auto.
Qed.

Definition ctx3 {F} (x y z : value F) : ctx F :=
  fun i => match i with 0 => Some x | 1 => Some y | 2 => Some z | _ => None end.

(** Same text, different values: [x + 1] and [1 - x]; [(x^y)^z] and [x^(y^z)]; [(-x)^y] and
    [-(x^y)]; [(2x)^y] and [2(x^y)]. *)
Lemma text_ambiguous (sym : ident -> string) (show : Z -> string) :
  let S := Z_scalar in
  let same (n m : node Z) :=
    display sym show n <> None /\ display sym show n = display sym show m /\
    exists c v w, snd (evaluate n c) = Ok v /\ snd (evaluate m c) = Ok w /\ v <> w in
  same (Un AddOne (Var 0)) (Un OneSub (Var 0)) /\
  same (Power (Power (Var 0) (Var 1)) (Var 2)) (Power (Var 0) (Power (Var 1) (Var 2))) /\
  same (Power (Un Negate (Var 0)) (Var 1)) (Un Negate (Power (Var 0) (Var 1))) /\
  same (Power (Un Double (Var 0)) (Var 1)) (Un Double (Power (Var 0) (Var 1))).
Proof.
  intros S same.
  assert (K : forall n m a b, display sym show n <> None -> display sym show n = display sym show m ->
            snd (evaluate n (ctx3 (VScal 2%Z) (VScal 2%Z) (VScal 3%Z))) = Ok (VScal a) ->
            snd (evaluate m (ctx3 (VScal 2%Z) (VScal 2%Z) (VScal 3%Z))) = Ok (VScal b) ->
            (a =? b)%Z = false -> same n m).
  { intros n m a b D E En Em N; split; [exact D|split; [exact E|]].
    exists (ctx3 (VScal 2%Z) (VScal 2%Z) (VScal 3%Z)), (VScal a), (VScal b); split; [exact En|split; [exact Em|]].
    intro Q; injection Q as ->; rewrite Z.eqb_refl in N; discriminate N. }
  split; [|split; [|split]].
  - apply (K _ _ 3%Z (-1)%Z); [discriminate|reflexivity|reflexivity|reflexivity|reflexivity].
  - apply (K _ _ 64%Z 256%Z); [discriminate| |reflexivity|reflexivity|reflexivity].
    cbn; f_equal; rewrite !app_assoc_s; reflexivity.
  - apply (K _ _ 4%Z (-4)%Z); [discriminate|reflexivity|reflexivity|reflexivity|reflexivity].
  - apply (K _ _ 16%Z 8%Z); [discriminate|reflexivity|reflexivity|reflexivity|reflexivity].
Qed.
