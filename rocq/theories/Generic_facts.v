(** Evaluation commutes with every relation between scalar types that the operations respect. *)
From Coq Require Import List Arith Bool Lia.
Import ListNotations.
From Verif Require Import Base Shapes Scalar Buffers Spec Contraction Node Eval Generic_math Buffers_facts.

Section Generic.
Context {A B : Type} {SA : Scalar A} {SB : Scalar B}.
Variable P : A -> B -> Prop.
Variable may : kind -> Prop.
Notation arel := (arr_rel P).
Notation vrel := (value_rel P).
Notation srel := (spec_rel P).
Notation crel := (ctx_rel P).

(** * Results *)
Lemma res_map_rel {E X Y X' Y'} (R : X -> Y -> Prop) (R' : X' -> Y' -> Prop) f g (x : res E X) (y : res E Y) :
  res_rel R x y -> (forall a b, R a b -> R' (f a) (g b)) -> res_rel R' (res_map f x) (res_map g y).
Proof. destruct x, y; simpl; intros; auto; contradiction. Qed.

Lemma res_bind_rel {E X Y X' Y'} (R : X -> Y -> Prop) (R' : X' -> Y' -> Prop) f g (x : res E X) (y : res E Y) :
  res_rel R x y -> (forall a b, R a b -> res_rel R' (f a) (g b)) -> res_rel R' (res_bind x f) (res_bind y g).
Proof. destruct x, y; simpl; intros; auto; contradiction. Qed.

Lemma res_err_rel {E E' X Y} (R : X -> Y -> Prop) (f : E -> E') (x : res E X) (y : res E Y) :
  res_rel R x y -> res_rel R (res_map_err f x) (res_map_err f y).
Proof. destruct x, y; simpl; intros; subst; auto. Qed.

Lemma res_unwrap_rel {E E' X Y} (R : X -> Y -> Prop) (x : res E X) (y : res E Y) :
  res_rel R x y -> @res_rel E' _ _ R (res_unwrap x) (res_unwrap y).
Proof. destruct x, y; simpl; intros; auto; contradiction. Qed.

Lemma opt_unwrap_rel {E X Y} (R : X -> Y -> Prop) (x : option X) (y : option Y) :
  opt_rel R x y -> @res_rel E _ _ R (opt_unwrap x) (opt_unwrap y).
Proof. destruct x, y; simpl; auto. Qed.

Lemma res_rel_eq {E X} (x : res E X) : res_rel eq x x.
Proof. destruct x; simpl; auto. Qed.

(** * Lists *)
Lemma same_length {X Y} (R : X -> Y -> Prop) l m : Forall2 R l m -> length l = length m.
Proof. induction 1; simpl; auto. Qed.

Lemma map_rel {X Y X' Y'} (R : X -> Y -> Prop) (R' : X' -> Y' -> Prop) f g l m :
  Forall2 R l m -> (forall a b, R a b -> R' (f a) (g b)) -> Forall2 R' (map f l) (map g m).
Proof. intros H K; induction H; simpl; auto. Qed.

Lemma map_same_rel {X X' Y'} (R' : X' -> Y' -> Prop) (f : X -> X') (g : X -> Y') l :
  (forall a, In a l -> R' (f a) (g a)) -> Forall2 R' (map f l) (map g l).
Proof. induction l; simpl; intros H; constructor; auto. Qed.

Lemma repeat_rel {X Y} (R : X -> Y -> Prop) a b n : R a b -> Forall2 R (repeat a n) (repeat b n).
Proof. induction n; simpl; auto. Qed.

Lemma nth_rel {X Y} (R : X -> Y -> Prop) l m i : Forall2 R l m -> opt_rel R (nth_error l i) (nth_error m i).
Proof. intro H; revert i; induction H; intros [|i]; simpl; auto. Qed.

Lemma set_rel {X Y} (R : X -> Y -> Prop) l m i x y : Forall2 R l m -> R x y ->
  opt_rel (Forall2 R) (list_set i x l) (list_set i y m).
Proof.
  intros H K; revert i; induction H; intros [|i]; simpl; auto.
  specialize (IHForall2 i); destruct (list_set i x l), (list_set i y l'); simpl in *; auto.
Qed.

Lemma fold_rel {X Y S T} (R : X -> Y -> Prop) (Q : S -> T -> Prop) f g l m :
  Forall2 R l m -> (forall s t a b, Q s t -> R a b -> Q (f s a) (g t b)) ->
  forall s t, Q s t -> Q (fold_left f l s) (fold_left g m t).
Proof. intros H K; induction H; simpl; auto. Qed.

Lemma fold_same_rel {X S T} (Q : S -> T -> Prop) f g (l : list X) :
  (forall s t a, In a l -> Q s t -> Q (f s a) (g t a)) ->
  forall s t, Q s t -> Q (fold_left f l s) (fold_left g l t).
Proof. induction l; simpl; auto. Qed.

Lemma combine_rel {X Y} (R : X -> Y -> Prop) l m l' m' : Forall2 R l l' -> Forall2 R m m' ->
  Forall2 (fun p q => R (fst p) (fst q) /\ R (snd p) (snd q)) (combine l m) (combine l' m').
Proof. intro H; revert m m'; induction H; intros m m' K; simpl; auto; destruct K; auto. Qed.

(** * Arrays *)
Lemma arel_build ds f g : (forall ix, P (f ix) (g ix)) -> arel (arr_build ds f) (arr_build ds g).
Proof.
  revert f g; induction ds as [|d ds IH]; intros f g H; simpl; constructor; auto.
  apply map_same_rel; auto.
Qed.

Lemma arel_full ds x y : P x y -> arel (arr_full ds x) (arr_full ds y).
Proof. intro H; induction ds; simpl; constructor; auto; apply repeat_rel; auto. Qed.

Lemma arel_get ix a b : arel a b -> opt_rel P (arr_get ix a) (arr_get ix b).
Proof.
  revert a b; induction ix as [|i ix IH]; intros a b [x y H|l m H]; simpl; auto.
  assert (N := nth_rel _ _ _ i H); destruct (nth_error l i), (nth_error m i); simpl in N; try contradiction; simpl; auto.
Qed.

Lemma arel_set ix x y a b : arel a b -> P x y -> opt_rel arel (arr_set ix x a) (arr_set ix y b).
Proof.
  intros H K; revert a b H; induction ix as [|i ix IH]; intros a b [x' y' H|l m H]; simpl; auto.
  - constructor; auto.
  - assert (N := nth_rel _ _ _ i H); destruct (nth_error l i) as [a'|], (nth_error m i) as [b'|]; simpl in N; try contradiction; auto.
    specialize (IH a' b' N); destruct (arr_set ix x a') as [u|], (arr_set ix y b') as [v|]; simpl in IH; try contradiction; auto.
    assert (S := set_rel _ _ _ i _ _ H IH); destruct (list_set i u l), (list_set i v m); simpl in *; auto.
    constructor; auto.
Qed.

Lemma arel_rows_inv l m : arel (AN l) (AN m) -> Forall2 arel l m.
Proof. inversion 1; auto. Qed.

Lemma arel_map f g a b : (forall x y, P x y -> P (f x) (g y)) -> arel a b -> arel (arr_map f a) (arr_map g b).
Proof.
  intro H; revert b; induction a as [x|l IH] using arr_ind2; intros b K; inversion K; subst; simpl; constructor; auto.
  match goal with F : Forall2 _ l ?m |- _ => revert IH; clear -F; induction F; intro IH; inversion IH; subst; simpl; auto end.
Qed.

Lemma arel_bind f g a b : (forall x y, P x y -> arel (f x) (g y)) -> arel a b -> arel (arr_bind f a) (arr_bind g b).
Proof.
  intro H; revert b; induction a as [x|l IH] using arr_ind2; intros b K; inversion K; subst; simpl; auto; constructor.
  match goal with F : Forall2 _ l ?m |- _ => revert IH; clear -F; induction F; intro IH; inversion IH; subst; simpl; auto end.
Qed.

Lemma arel_fold {S T} (Q : S -> T -> Prop) f g a b :
  (forall s t x y, Q s t -> P x y -> Q (f s x) (g t y)) -> arel a b ->
  forall s t, Q s t -> Q (arr_fold f s a) (arr_fold g t b).
Proof.
  intro H; revert b; induction a as [x|l IH] using arr_ind2; intros b K; inversion K; subst; simpl; auto.
  match goal with F : Forall2 _ l ?m |- _ => revert IH; clear -F; induction F; intro IH; inversion IH; subst; simpl; auto end.
Qed.

Lemma arel_zip f g a b a' b' : (forall x x' y y', P x x' -> P y y' -> P (f x y) (g x' y')) ->
  arel a a' -> arel b b' -> arel (arr_zip f a b) (arr_zip g a' b').
Proof.
  intro H; revert b a' b'; induction a as [x|l IH] using arr_ind2; intros b a' b' K1 K2;
    inversion K1; subst; inversion K2; subst; simpl; try (constructor; auto; fail).
  constructor; clear K1 K2.
  match goal with H1 : Forall2 _ l ?m, H0 : Forall2 _ ?p ?q |- _ =>
    assert (K1 : Forall2 arel l m) by assumption; assert (K2 : Forall2 arel p q) by assumption; clear H0 end.
  match type of K2 with Forall2 _ ?p ?q =>
    revert IH; generalize dependent q; generalize dependent p; clear -K1 H; induction K1; intros p q K2 IH end.
  - destruct K2; constructor.
  - inversion IH; subst; destruct K2; constructor; auto.
Qed.

(** * Buffers *)
Lemma bty_rel v w : vrel v w -> bty_of v = bty_of w.
Proof. intros [| | l m H|]; simpl; auto; f_equal; eapply same_length; eauto. Qed.

Lemma spec_bty_rel s r : srel s r -> spec_bty s = spec_bty r.
Proof. intros [v w H| |]; simpl; auto; apply bty_rel; auto. Qed.

Lemma build_rel t f g : (forall ix, P (f ix) (g ix)) -> vrel (build t f) (build t g).
Proof. intro H; destruct t; simpl; constructor; auto; [apply map_same_rel; auto|apply arel_build; auto]. Qed.

Lemma full_rel t x y : P x y -> vrel (full t x) (full t y).
Proof. intro H; destruct t; simpl; constructor; auto; [apply repeat_rel; auto|apply arel_full; auto]. Qed.

Lemma vmap_rel f g v w : (forall x y, P x y -> P (f x) (g y)) -> vrel v w -> vrel (vmap f v) (vmap g w).
Proof. intros H [| | |]; simpl; constructor; auto; [eapply map_rel; eauto|apply arel_map; auto]. Qed.

Lemma mutate_from_rel f g n : (forall x y, P x y -> P (f x) (g y)) -> forall i l m, Forall2 P l m ->
  opt_rel (Forall2 P) (mutate_from f i n l) (mutate_from g i n m).
Proof.
  intro H; induction n as [|n IH]; intros i l m K; simpl; auto.
  assert (N := nth_rel _ _ _ i K); destruct (nth_error l i) as [x|], (nth_error m i) as [y|]; simpl in N; try contradiction; simpl; auto.
  assert (S := set_rel _ _ _ i _ _ K (H _ _ N)).
  destruct (list_set i (f x) l), (list_set i (g y) m); simpl in S; try contradiction; simpl; auto.
Qed.

Lemma vmutate_rel f g v w : (forall x y, P x y -> P (f x) (g y)) -> vrel v w -> vrel (vmutate f v) (vmutate g w).
Proof.
  intros H [| |l m K|]; simpl; constructor; auto; [|apply arel_map; auto].
  rewrite <- (same_length _ _ _ K).
  assert (M := mutate_from_rel f g (length l) H 0 l m K).
  destruct (mutate_from f 0 (length l) l), (mutate_from g 0 (length l) m); simpl in M; try contradiction; auto.
Qed.

Lemma vfold_rel {S T} (Q : S -> T -> Prop) f g v w :
  (forall s t x y, Q s t -> P x y -> Q (f s x) (g t y)) -> vrel v w ->
  forall s t, Q s t -> Q (vfold f s v) (vfold g t w).
Proof.
  intros H [| | |]; intros s t Z; simpl; auto; [eapply fold_rel; eauto|eapply arel_fold; eauto].
Qed.

Lemma get_rel {E} v w ix : vrel v w -> @res_rel E _ _ P (get_unchecked v ix) (get_unchecked w ix).
Proof.
  intros [| | |]; simpl; auto.
  - destruct ix as [|[|[|k]] [|]]; simpl; auto.
  - destruct ix as [|k [|]]; simpl; auto; apply opt_unwrap_rel, nth_rel; auto.
  - apply opt_unwrap_rel, arel_get; auto.
Qed.

Lemma zip_loop_rel {E} f g (gl gr : list nat -> res E A) (gl' gr' : list nat -> res E B) ixs :
  (forall s t x x' y y', P s t -> P x x' -> P y y' -> P (f s (x, y)) (g t (x', y'))) ->
  (forall ix, res_rel P (gl ix) (gl' ix)) -> (forall ix, res_rel P (gr ix) (gr' ix)) ->
  forall s t, P s t -> res_rel P (zip_fold_loop f gl gr ixs s) (zip_fold_loop g gl' gr' ixs t).
Proof.
  intros H L R s t Z; unfold zip_fold_loop; apply fold_same_rel; simpl; auto.
  intros a b ix _ K; eapply res_bind_rel; [exact K|]; intros u u' U.
  eapply res_bind_rel; [apply L|]; intros x x' X; eapply res_bind_rel; [apply R|]; intros y y' Y; simpl; auto.
Qed.

Lemma zip_fold_rel f g v w v' w' :
  (forall s t x x' y y', P s t -> P x x' -> P y y' -> P (f s (x, y)) (g t (x', y'))) ->
  vrel v v' -> vrel w w' -> forall s t, P s t -> res_rel P (zip_fold f s v w) (zip_fold g t v' w').
Proof.
  intros H V W s t Z; assert (V' := V); assert (W' := W); destruct V as [| |l l' L|], W as [| |m m' M|]; simpl; auto.
  - rewrite <- (same_length _ _ _ L), <- (same_length _ _ _ M); destruct (_ =? _); simpl; auto.
    apply zip_loop_rel; auto; intros; apply (get_rel (VVec _) (VVec _)); auto.
  - apply zip_loop_rel; auto; intros; apply (get_rel (VArr _ _) (VArr _ _)); auto.
  - destruct (dims_eqb _ _); simpl; auto.
    apply zip_loop_rel; auto; intros; apply (get_rel (VArr _ _) (VArr _ _)); auto.
Qed.

Lemma arel_field_l f g x x' ds b b' : (forall x x' y y', P x x' -> P y y' -> P (f x y) (g x' y')) ->
  P x x' -> arel b b' -> arel (arr_zip_field_l f x ds b) (arr_zip_field_l g x' ds b').
Proof.
  intros H X Y; unfold arr_zip_field_l.
  assert (Z : arel (match b with AN l => AN (map (fun row => arr_zip_field_r f row x) l) | AF y => AF (f y x) end)
                   (match b' with AN l => AN (map (fun row => arr_zip_field_r g row x') l) | AF y => AF (g y x') end)).
  { destruct Y as [y y' Y|l m L]; constructor; auto; eapply map_rel; [exact L|].
    intros r r' R; apply arel_map; auto. }
  destruct ds as [|d [|]]; auto; apply arel_map; auto.
Qed.

Lemma zip_map_rel f g v w v' w' : (forall x x' y y', P x x' -> P y y' -> P (f x y) (g x' y')) ->
  vrel v v' -> vrel w w' -> res_rel vrel (zip_map f v w) (zip_map g v' w').
Proof.
  intros H V W; destruct V as [x x' X|x y x' y' X Y|l l' L|ds a a' Ha], W as [z z' Z|z t z' t' Z T|m m' M|es b b' Hb]; simpl; auto.
  - constructor; auto.
  - constructor; eapply map_rel; [exact M|]; auto.
  - constructor; apply arel_field_l; auto.
  - constructor; auto.
  - constructor; eapply map_rel; [exact L|]; auto.
  - unfold vshape; simpl; rewrite <- (same_length _ _ _ L), <- (same_length _ _ _ M).
    destruct (_ && true); simpl; auto; constructor; eapply map_rel; [apply combine_rel; eauto|].
    intros p q [? ?]; auto.
  - constructor; apply arel_map; auto.
  - destruct (dims_eqb _ _); simpl; auto; constructor; apply arel_zip; auto.
Qed.

Lemma zip_mut_rel f g v w v' w' : (forall x x' y y', P x x' -> P y y' -> P (f x y) (g x' y')) ->
  vrel v v' -> vrel w w' -> res_rel vrel (zip_mut f v w) (zip_mut g v' w').
Proof.
  intros H V W; destruct V, W; simpl; auto.
  - constructor; apply arel_map; auto.
  - destruct (dims_eqb _ _); simpl; auto; constructor; apply arel_zip; auto.
Qed.

Lemma zip_id_rel f g v w v' w' : (forall x x' y y', P x x' -> P y y' -> P (f x y) (g x' y')) ->
  vrel v v' -> vrel w w' -> res_rel vrel (zip_map_id f v w) (zip_map_id g v' w').
Proof.
  intros H V W; assert (M := zip_map_rel f g v w v' w' H V W); assert (U := zip_mut_rel f g v w v' w' H V W).
  unfold zip_map_id; destruct V, W; auto.
Qed.

Lemma zip_shape_rel v w t : vrel v w -> res_rel vrel (zip_shape v t) (zip_shape w t).
Proof.
  intro V; destruct V as [x x' X|x y x' y' X Y|l l' L|ds a a' Ha], t; simpl; auto;
    try (constructor; auto; fail).
  - constructor; apply repeat_rel; auto.
  - constructor; apply arel_full; auto.
  - unfold vshape; simpl; rewrite <- (same_length _ _ _ L); destruct (_ && true); simpl; auto; constructor; auto.
  - destruct (dims_eqb _ _); simpl; auto; constructor; auto.
Qed.

Lemma subset_step_rel {E} f g v w ix : (forall i, P (f i) (g i)) -> vrel v w ->
  @res_rel E _ _ vrel (subset_step f v ix) (subset_step g w ix).
Proof.
  intros H [| |l m L|ds a b K]; simpl; auto.
  - constructor; auto.
  - destruct ix as [|[|[|k]] [|]]; simpl; constructor; auto.
  - destruct ix as [|k [|]]; simpl; auto.
    eapply res_map_rel; [apply opt_unwrap_rel, set_rel; [exact L|apply H]|]; intros; constructor; auto.
  - eapply res_map_rel; [apply opt_unwrap_rel, arel_set; [exact K|apply H]|]; intros; constructor; auto.
Qed.

Lemma subset_rel {E} t x y l f g : P x y -> (forall i, P (f i) (g i)) ->
  @res_rel E _ _ vrel (build_subset t x l f) (build_subset t y l g).
Proof.
  intros X H.
  assert (Z : @res_rel E _ _ vrel
    (fold_left (fun acc ix => res_bind acc (fun buf => subset_step f buf ix)) l (Ok (full t x)))
    (fold_left (fun acc ix => res_bind acc (fun buf => subset_step g buf ix)) l (Ok (full t y)))).
  { apply fold_same_rel; [|simpl; apply full_rel; auto].
    intros a b ix _ K; eapply res_bind_rel; [exact K|]; intros; apply subset_step_rel; auto. }
  destruct t; simpl; auto; destruct l; simpl; constructor; auto.
Qed.

(** * Specs *)
Variable Hr : respected P may.
Let zero := rs_zero P may Hr.
Let one := rs_one P may Hr.
Let add := rs_add P may Hr.
Let sub := rs_sub P may Hr.
Let mul := rs_mul P may Hr.

Lemma is_zero_rel x y : P x y -> is_zero x = is_zero y.
Proof. intro H; apply (rs_eq P may Hr); auto. Qed.

Lemma diagonal_rel t x y : P x y -> vrel (diagonal t x) (diagonal t y).
Proof. intro H; apply build_rel; intro ix; destruct (is_diagonal ix); auto. Qed.

Lemma unwrap_rel s r : srel s r -> vrel (unwrap s) (unwrap r).
Proof. intros [| |]; simpl; auto; [apply full_rel|apply diagonal_rel]; auto. Qed.

(** * Contractions *)
Lemma try_list_rel {E X Y} (R : X -> Y -> Prop) (l : list (res E X)) (m : list (res E Y)) :
  Forall2 (res_rel R) l m -> res_rel (Forall2 R) (try_list l) (try_list m).
Proof.
  intro H; induction H; simpl; auto; eapply res_bind_rel; [eassumption|]; intros a b K.
  eapply res_bind_rel; [eassumption|]; intros; simpl; auto.
Qed.

Lemma try_build_rel {E} ds (f : list nat -> res E A) (g : list nat -> res E B) :
  (forall ix, res_rel P (f ix) (g ix)) -> res_rel arel (try_build ds f) (try_build ds g).
Proof.
  revert f g; induction ds as [|d ds IH]; intros f g H; simpl.
  - eapply res_map_rel; [apply H|]; intros; constructor; auto.
  - eapply res_map_rel; [apply try_list_rel, map_same_rel; intros; apply IH; auto|]; intros; constructor; auto.
Qed.

Lemma sum_loop_rel {E} n (f : nat -> res E A) (g : nat -> res E B) :
  (forall k, res_rel P (f k) (g k)) -> res_rel P (sum_loop n f) (sum_loop n g).
Proof.
  intro H; unfold sum_loop; apply fold_same_rel; simpl; auto.
  intros s t k _ K; eapply res_bind_rel; [exact K|]; intros; eapply res_bind_rel; [apply H|]; intros; simpl; auto.
Qed.

Lemma aix_rel {E} a b ix : arel a b -> @res_rel E _ _ P (aix a ix) (aix b ix).
Proof. intro H; apply opt_unwrap_rel, arel_get; auto. Qed.

Lemma product_rel {E} a b a' b' ix jx : arel a a' -> arel b b' ->
  @res_rel E _ _ P (res_bind (aix a ix) (fun x => res_bind (aix b jx) (fun y => Ok (fmul x y))))
                   (res_bind (aix a' ix) (fun x => res_bind (aix b' jx) (fun y => Ok (fmul x y)))).
Proof.
  intros H K; eapply res_bind_rel; [apply aix_rel; eauto|]; intros.
  eapply res_bind_rel; [apply aix_rel; eauto|]; intros; simpl; auto.
Qed.

Lemma contract_rel k v w v' w' : vrel v v' -> vrel w w' -> res_rel vrel (contract k v w) (contract k v' w').
Proof.
  intros V W.
  assert (T : forall ds (f : list nat -> res incompat A) g, (forall ix, res_rel P (f ix) (g ix)) ->
    res_rel vrel (res_map (VArr ds) (try_build ds f)) (res_map (VArr ds) (try_build ds g))).
  { intros ds f g H; eapply res_map_rel; [apply try_build_rel; eauto|]; intros; constructor; auto. }
  assert (V0 := V); assert (W0 := W).
  destruct k as [|[|k]]; destruct V as [x x' X|x y x' y' X Y|l l' L|ds a a' Ha], W as [z z' Z|z t z' t' Z T'|m m' M|es b b' Hb];
    try exact Logic.I; try (destruct ds as [|d [|d' [|]]]; exact Logic.I); try (destruct es as [|e [|e' [|]]]; exact Logic.I).
  - constructor; auto.
  - destruct es as [|e [|e' [|]]]; simpl; auto; constructor; apply arel_map; auto.
  - destruct ds as [|d [|d' [|]]]; simpl; auto; constructor; apply arel_map; auto.
  - destruct ds as [|d [|d' [|]]], es as [|e [|e' [|]]]; simpl; auto; constructor; apply arel_bind; auto.
    intros; apply arel_map; auto.
  - constructor; auto.
  - destruct ds as [|d [|d' [|]]], es as [|e [|e' [|]]]; cbn [contract]; try exact Logic.I.
    + destruct (d =? e); [|exact Logic.I].
      eapply res_map_rel; [apply (zip_fold_rel _ _ _ _ _ _ (fun _ _ _ _ _ _ S X Y => add _ _ _ _ S (mul _ _ _ _ X Y)) V0 W0 _ _ zero)|].
      intros; constructor; auto.
    + destruct (d =? e); [|exact Logic.I]; apply T; intros; apply sum_loop_rel; intros; apply product_rel; auto.
    + destruct (d =? e); [|exact Logic.I]; apply T; intros; apply sum_loop_rel; intros; apply product_rel; auto.
    + destruct (d' =? e); [|exact Logic.I]; apply T; intros; apply sum_loop_rel; intros; apply product_rel; auto.
Qed.

Lemma unwrap_scal_rel {E} s r : srel s r -> @res_rel E _ _ P (unwrap_scal s) (unwrap_scal r).
Proof. intro H; unfold unwrap_scal; destruct (unwrap_rel s r H); simpl; auto. Qed.

Lemma dense_rel k x y x' y' : srel x x' -> srel y y' ->
  res_rel srel (contract_dense k x y) (contract_dense k x' y').
Proof.
  intros; unfold contract_dense; eapply res_map_rel; [apply contract_rel; apply unwrap_rel; eauto|].
  intros; constructor; auto.
Qed.

Lemma field_r_rel x y x' y' : srel x x' -> srel y y' -> res_rel srel (tp_field_r x y) (tp_field_r x' y').
Proof.
  intros X Y; assert (D := dense_rel 0 _ _ _ _ X Y); unfold tp_field_r; destruct X; auto.
  eapply res_bind_rel; [apply unwrap_scal_rel; eauto|]; intros; simpl; constructor; auto.
Qed.

Lemma field_l1_rel x y x' y' : srel x x' -> srel y y' -> res_rel srel (tp_field_l1 x y) (tp_field_l1 x' y').
Proof.
  intros X Y; assert (D := dense_rel 0 _ _ _ _ X Y); unfold tp_field_l1; destruct Y; auto.
  eapply res_bind_rel; [apply unwrap_scal_rel; eauto|]; intros; simpl; constructor; auto.
Qed.

Lemma field_l2_rel x y x' y' : srel x x' -> srel y y' -> res_rel srel (tp_field_l2 x y) (tp_field_l2 x' y').
Proof.
  intros X Y; assert (D := dense_rel 0 _ _ _ _ X Y); unfold tp_field_l2; destruct Y; auto.
  eapply res_bind_rel; [apply unwrap_scal_rel; eauto|]; intros; simpl; constructor; auto.
Qed.

Lemma zeroes_rel t : srel (spec_zeroes t) (spec_zeroes t).
Proof. constructor; auto. Qed.

Lemma vec_vec_rel n m x y x' y' : srel x x' -> srel y y' -> res_rel srel (tp_vec_vec n m x y) (tp_vec_vec n m x' y').
Proof.
  intros X Y; assert (D := dense_rel 0 _ _ _ _ X Y); unfold tp_vec_vec.
  assert (Q : forall a a', P a a' -> forall s s', srel s s' ->
    res_rel srel (match unwrap s with VArr _ b => Ok (Raw (VArr [n; m] (AN (repeat (arr_map (fun yi => fmul a yi) b) n)))) | _ => @Stuck incompat _ end)
                 (match unwrap s' with VArr _ b => Ok (Raw (VArr [n; m] (AN (repeat (arr_map (fun yi => fmul a' yi) b) n)))) | _ => Stuck end)).
  { intros a a' Ha s s' Hs; destruct (unwrap_rel s s' Hs); simpl; auto.
    constructor; constructor; constructor; apply repeat_rel, arel_map; auto. }
  assert (Q' : forall a a', P a a' -> forall s s', srel s s' ->
    res_rel srel (match unwrap s with VArr _ b => Ok (Raw (VArr [n; m] (arr_bind (fun xi => AN (repeat (AF (fmul xi a)) m)) b))) | _ => @Stuck incompat _ end)
                 (match unwrap s' with VArr _ b => Ok (Raw (VArr [n; m] (arr_bind (fun xi => AN (repeat (AF (fmul xi a')) m)) b))) | _ => Stuck end)).
  { intros a a' Ha s s' Hs; destruct (unwrap_rel s s' Hs); simpl; auto.
    constructor; constructor; apply arel_bind; auto; intros; constructor; apply repeat_rel; constructor; auto. }
  assert (X0 := X); assert (Y0 := Y); destruct X as [v w V|t a a' Ha|t a a' Ha], Y as [v' w' V'|u b b' Hb|u b b' Hb]; auto;
    try (rewrite (is_zero_rel _ _ Hb); destruct (is_zero b'); [apply zeroes_rel|auto]; fail);
    try (rewrite (is_zero_rel _ _ Ha); destruct (is_zero a'); [apply zeroes_rel|auto]; fail).
  simpl; constructor; auto.
Qed.

Lemma dot_vv_rel n x y x' y' : srel x x' -> srel y y' -> res_rel srel (dot_vec_vec n x y) (dot_vec_vec n x' y').
Proof.
  intros X Y; unfold dot_vec_vec.
  assert (Fo : forall f g s s', (forall a a' b b', P a a' -> P b b' -> P (f a b) (g a' b')) -> srel s s' ->
    @res_rel incompat _ _ srel (Ok (Full TS (vfold f fzero (unwrap s)))) (Ok (Full TS (vfold g fzero (unwrap s'))))).
  { intros f g s s' H K; simpl; constructor; apply vfold_rel; auto; apply unwrap_rel; auto. }
  assert (Zf : res_rel srel (res_map (fun z => Raw (VScal z))
       (zip_fold (fun acc p => fadd acc (fmul (fst p) (snd p))) fzero (unwrap x) (unwrap y)))
     (res_map (fun z => Raw (VScal z))
       (zip_fold (fun acc p => fadd acc (fmul (fst p) (snd p))) fzero (unwrap x') (unwrap y')))).
  { eapply res_map_rel; [apply zip_fold_rel|]; try (apply unwrap_rel; eauto); auto; try (intros; simpl; auto; fail).
    intros; constructor; constructor; auto. }
  assert (X0 := X); assert (Y0 := Y); destruct X as [v w V|t a a' Ha|t a a' Ha], Y as [v' w' V'|u b b' Hb|u b b' Hb]; auto;
    try (apply Fo; auto; fail).
  eapply res_bind_rel; [apply opt_unwrap_rel, (rs_usize P may Hr)|]; intros; simpl; constructor; auto.
Qed.

Lemma cast_rel ds v w : vrel v w -> res_rel vrel (cast_dims ds v) (cast_dims ds w).
Proof. intros [| | |]; simpl; auto; constructor; auto. Qed.

Lemma mutated_rel ds f g s r : (forall a b, P a b -> P (f a) (g b)) -> srel s r ->
  res_rel srel (res_map Raw (cast_dims ds (vmutate f (unwrap s)))) (res_map Raw (cast_dims ds (vmutate g (unwrap r)))).
Proof.
  intros H K; eapply res_map_rel; [apply cast_rel, vmutate_rel; [exact H|apply unwrap_rel; auto]|].
  intros; constructor; auto.
Qed.

Lemma mat_vec_rel n m x y x' y' : srel x x' -> srel y y' -> res_rel srel (dot_mat_vec n m x y) (dot_mat_vec n m x' y').
Proof.
  intros X Y; assert (D := dense_rel 1 _ _ _ _ X Y); unfold dot_mat_vec.
  assert (M : forall a a', P a a' -> res_rel srel
    (if m =? n then res_map Raw (cast_dims [m] (vmutate (fun yi => fmul a yi) (unwrap y))) else contract_dense 1 x y)
    (if m =? n then res_map Raw (cast_dims [m] (vmutate (fun yi => fmul a' yi) (unwrap y'))) else contract_dense 1 x' y')).
  { intros; destruct (m =? n); auto; apply mutated_rel; auto. }
  assert (X0 := X); assert (Y0 := Y); destruct X as [v w V|t a a' Ha|t a a' Ha], Y as [v' w' V'|u b b' Hb|u b b' Hb]; auto;
    try (rewrite (is_zero_rel _ _ Ha); destruct (is_zero a'); [apply zeroes_rel|auto]; fail).
  simpl; constructor; auto.
Qed.

Lemma vec_mat_rel n m x y x' y' : srel x x' -> srel y y' -> res_rel srel (dot_vec_mat n m x y) (dot_vec_mat n m x' y').
Proof.
  intros X Y; assert (D := dense_rel 1 _ _ _ _ X Y); unfold dot_vec_mat.
  assert (M : forall a a', P a a' -> res_rel srel
    (if m =? n then res_map Raw (cast_dims [m] (vmutate (fun xi => fmul xi a) (unwrap x))) else contract_dense 1 x y)
    (if m =? n then res_map Raw (cast_dims [m] (vmutate (fun xi => fmul xi a') (unwrap x'))) else contract_dense 1 x' y')).
  { intros; destruct (m =? n); auto; apply mutated_rel; auto. }
  assert (X0 := X); assert (Y0 := Y); destruct X as [v w V|t a a' Ha|t a a' Ha], Y as [v' w' V'|u b b' Hb|u b b' Hb]; auto;
    try (rewrite (is_zero_rel _ _ Hb); destruct (is_zero b'); [apply zeroes_rel|auto]; fail).
  simpl; constructor; auto.
Qed.

Lemma mat_mat_rel n z m x y x' y' : srel x x' -> srel y y' -> res_rel srel (dot_mat_mat n z m x y) (dot_mat_mat n z m x' y').
Proof.
  intros X Y; assert (D := dense_rel 1 _ _ _ _ X Y); unfold dot_mat_mat.
  assert (X0 := X); assert (Y0 := Y); destruct X as [v w V|t a a' Ha|t a a' Ha], Y as [v' w' V'|u b b' Hb|u b b' Hb]; auto.
  - eapply res_bind_rel; [apply opt_unwrap_rel, (rs_usize P may Hr)|]; intros; simpl; constructor; auto.
  - destruct (_ && _); simpl; auto; constructor; auto.
Qed.

Lemma contract_spec_rel k x y x' y' : srel x x' -> srel y y' ->
  res_rel srel (contract_spec k x y) (contract_spec k x' y').
Proof.
  intros X Y; unfold contract_spec; rewrite <- (spec_bty_rel _ _ X), <- (spec_bty_rel _ _ Y).
  assert (Sc : @res_rel incompat _ _ srel
    (res_bind (unwrap_scal x) (fun a => res_bind (unwrap_scal y) (fun b => Ok (Full TS (fmul a b)))))
    (res_bind (unwrap_scal x') (fun a => res_bind (unwrap_scal y') (fun b => Ok (Full TS (fmul a b)))))).
  { eapply res_bind_rel; [apply unwrap_scal_rel; eauto|]; intros.
    eapply res_bind_rel; [apply unwrap_scal_rel; eauto|]; intros; simpl; constructor; auto. }
  destruct k as [|[|k]]; [| |exact Logic.I];
    destruct (spec_bty x) as [| | |[|d [|d' [|]]]], (spec_bty y) as [| | |[|e [|e' [|]]]]; try exact Logic.I;
    auto using field_r_rel, field_l1_rel, field_l2_rel, vec_vec_rel.
  - destruct (d =? e); [apply dot_vv_rel; auto|exact Logic.I].
  - destruct (d =? e); [apply vec_mat_rel; auto|exact Logic.I].
  - destruct (d =? e); [apply mat_vec_rel; auto|exact Logic.I].
  - destruct (d' =? e); [apply mat_mat_rel; auto|exact Logic.I].
Qed.

(** * Evaluation *)
Notation run_rel := (run_rel P).

Record fn_rel (f : fn A) (g : fn B) : Prop := {
  fr_eval : forall c d, crel c d -> run_rel vrel (f_eval f c) (f_eval g d);
  fr_spec : forall c d, crel c d -> run_rel srel (f_spec f c) (f_spec g d);
  fr_shape : forall c d, crel c d -> run_rel eq (f_shape f c) (f_shape g d)
}.

Lemma run_map {E X Y X' Y'} (R : X -> Y -> Prop) (R' : X' -> Y' -> Prop) f g (p : ctx A * res E X) (q : ctx B * res E Y) :
  run_rel R p q -> (forall a b, R a b -> R' (f a) (g b)) ->
  run_rel R' (let (c, r) := p in (c, res_map f r)) (let (c, r) := q in (c, res_map g r)).
Proof.
  destruct p as [c x], q as [d y]; intros [C H] K; split; [exact C|]; cbn [snd] in *.
  eapply res_map_rel; eauto.
Qed.

Lemma run_two {X Y X' Y' Z Z'} (R : X -> X' -> Prop) (Q : Y -> Y' -> Prop) (T : Z -> Z' -> Prop)
  (l : ctx A -> ctx A * res err X) (r : ctx A -> ctx A * res err Y) (k : X -> Y -> res err Z) l' r' k' :
  (forall c d, crel c d -> run_rel R (l c) (l' d)) -> (forall c d, crel c d -> run_rel Q (r c) (r' d)) ->
  (forall a a' b b', R a a' -> Q b b' -> res_rel T (k a b) (k' a' b')) ->
  forall c d, crel c d -> run_rel T
    (let (c1, x) := l c in
     match res_map_err ELeft x with
     | Ok a => let (c2, y) := r c1 in
        match res_map_err ERight y with Ok b => (c2, k a b) | Err e => (c2, Err e) | Panic => (c2, Panic) | Stuck => (c2, Stuck) end
     | Err e => (c1, Err e) | Panic => (c1, Panic) | Stuck => (c1, Stuck) end)
    (let (c1, x) := l' d in
     match res_map_err ELeft x with
     | Ok a => let (c2, y) := r' c1 in
        match res_map_err ERight y with Ok b => (c2, k' a b) | Err e => (c2, Err e) | Panic => (c2, Panic) | Stuck => (c2, Stuck) end
     | Err e => (c1, Err e) | Panic => (c1, Panic) | Stuck => (c1, Stuck) end).
Proof.
  intros L Rr K c d C; destruct (L c d C) as [C1 X1]; destruct (l c) as [c1 x], (l' d) as [d1 x']; cbn [fst snd] in *.
  destruct x as [a|e| |], x' as [a'|e'| |]; try contradiction; cbn [res_map_err]; try (split; simpl in *; subst; auto; fail).
  destruct (Rr c1 d1 C1) as [C2 X2]; destruct (r c1) as [c2 y], (r' d1) as [d2 y']; cbn [fst snd] in *.
  destruct y as [b|e| |], y' as [b'|e'| |]; try contradiction; cbn [res_map_err]; split; simpl in *; subst; auto.
Qed.

Lemma read_bty_rel c d i : crel c d -> read_bty c i = read_bty d i.
Proof.
  intro H; specialize (H i); unfold read_bty; destruct (c i), (d i); simpl in *; try contradiction; auto.
  f_equal; apply bty_rel; auto.
Qed.

Lemma undef_rel {X Y} (R : X -> Y -> Prop) i x y : opt_rel R x y -> res_rel R (ok_or_undef i x) (ok_or_undef i y).
Proof. destruct x, y; simpl; auto. Qed.

Lemma by_spec f g : (forall c d, crel c d -> run_rel srel (f c) (g d)) ->
  forall c d, crel c d -> run_rel vrel (eval_by_spec f c) (eval_by_spec g d).
Proof. intros H c d C; unfold eval_by_spec; eapply run_map; [apply H; exact C|apply unwrap_rel]. Qed.

Lemma by_value f g : (forall c d, crel c d -> run_rel vrel (f c) (g d)) ->
  forall c d, crel c d -> run_rel srel (default_spec f c) (default_spec g d).
Proof. intros H c d C; unfold default_spec; eapply run_map; [apply H; exact C|intros; constructor; auto]. Qed.

Lemma default_shape_rel f g : (forall c d, crel c d -> run_rel vrel (f c) (g d)) ->
  forall c d, crel c d -> run_rel eq (default_shape f c) (default_shape g d).
Proof. intros H c d C; unfold default_shape; eapply run_map; [apply H; exact C|apply bty_rel]. Qed.

Lemma varadj_rel i t : fn_rel (varadj_fn i t) (varadj_fn i t).
Proof.
  assert (Sp : forall c d, crel c d -> run_rel srel (varadj_spec i t c) (varadj_spec i t d)).
  { intros c d C; split; [exact C|]; cbn [snd varadj_spec]; rewrite <- (read_bty_rel c d i C), <- (read_bty_rel c d t C).
    destruct (read_bty c i) as [sv|]; simpl; auto; destruct (read_bty c t) as [st|]; simpl; auto.
    destruct (adj_bty sv st) as [sa|]; simpl; auto; destruct (ident_eqb i t).
    - destruct (_ =? 2); simpl; [constructor; auto|].
      eapply res_map_rel; [apply subset_rel; auto|intros; constructor; auto].
    - simpl; constructor; auto. }
  split; cbn [f_eval f_spec f_shape varadj_fn]; [apply by_spec; exact Sp|exact Sp|].
  intros c d C; split; [exact C|]; cbn [snd varadj_shape]; rewrite <- (read_bty_rel c d i C), <- (read_bty_rel c d t C).
  apply res_rel_eq.
Qed.

Lemma constadj_rel f g t : fn_rel f g -> fn_rel (constadj_fn f t) (constadj_fn g t).
Proof.
  intro H.
  assert (Sh : forall c d, crel c d -> run_rel eq (constadj_shape f t c) (constadj_shape g t d)).
  { intros c d C; unfold constadj_shape; destruct (fr_shape f g H c d C) as [C1 X].
    destruct (f_shape f c) as [c1 x], (f_shape g d) as [d1 x']; cbn [fst snd] in *.
    destruct x as [a|e| |], x' as [a'|e'| |]; try contradiction; cbn [res_map_err]; split; simpl in *; subst; auto.
    change (option_map bty_of (read c1 t)) with (read_bty c1 t); change (option_map bty_of (read d1 t)) with (read_bty d1 t).
    rewrite <- (read_bty_rel c1 d1 t C1); apply res_rel_eq. }
  assert (Sp : forall c d, crel c d -> run_rel srel (constadj_spec f t c) (constadj_spec g t d)).
  { intros c d C; unfold constadj_spec; eapply run_map; [apply Sh; exact C|].
    intros a b ->; constructor; auto. }
  split; cbn [f_eval f_spec f_shape constadj_fn]; [apply by_spec; exact Sp|exact Sp|exact Sh].
Qed.

Lemma cached_rel f g k : fn_rel f g -> fn_rel (cached_fn f k) (cached_fn g k).
Proof.
  intro H.
  assert (Ev : forall c d, crel c d -> run_rel vrel (cached_eval f k c) (cached_eval g k d)).
  { intros c d C; unfold cached_eval, read; assert (K := C k); destruct (c k) as [v|], (d k) as [w|]; simpl in K; try contradiction.
    - split; auto.
    - destruct (fr_eval f g H c d C) as [C1 X]; destruct (f_eval f c) as [c1 x], (f_eval g d) as [d1 x']; cbn [fst snd] in *.
      destruct x as [a|e| |], x' as [a'|e'| |]; try contradiction; split; simpl in *; subst; auto.
      intro j; unfold write; destruct (ident_eqb k j); simpl; auto. }
  split; cbn [f_eval f_spec f_shape cached_fn]; [exact Ev|apply by_value; exact Ev|apply default_shape_rel; exact Ev].
Qed.

Lemma unary_rel u f g : may (KUn u) -> fn_rel f g -> fn_rel (unary_fn u f) (unary_fn u g).
Proof.
  intros M H; assert (U := rs_un P may Hr u M); split; cbn [f_eval f_spec f_shape unary_fn]; intros c d C.
  - eapply run_map; [apply (fr_eval f g H); exact C|]; intros; apply vmutate_rel; auto.
  - eapply run_map; [apply (fr_spec f g H); exact C|]; intros a b K; assert (W := unwrap_rel a b K).
    destruct K; simpl; constructor; auto; apply vmutate_rel; auto.
  - apply (fr_shape f g H); exact C.
Qed.

Lemma vsum_rel v w : vrel v w -> P (vsum v) (vsum w).
Proof. intro; unfold vsum; apply vfold_rel; auto. Qed.

Lemma sum_rel f g : fn_rel f g -> fn_rel (sum_fn f) (sum_fn g).
Proof.
  intro H; split; cbn [f_eval f_spec f_shape sum_fn]; intros c d C.
  - eapply run_map; [apply (fr_eval f g H); exact C|]; intros; constructor; apply vsum_rel; auto.
  - destruct (fr_spec f g H c d C) as [C1 X]; destruct (f_spec f c) as [c1 x], (f_spec g d) as [d1 x'].
    split; [exact C1|]; cbn [snd] in *; eapply res_bind_rel; [exact X|]; intros a b K.
    assert (U := unwrap_rel a b K); destruct K; simpl; try (constructor; constructor; apply vsum_rel; auto; fail).
    eapply res_bind_rel; [apply opt_unwrap_rel, (rs_usize P may Hr)|]; intros; simpl; constructor; auto.
  - split; [exact C|simpl; auto].
Qed.

Lemma power_post_rel b e b' e' : may KPow -> srel b b' -> srel e e' -> res_rel srel (power_post b e) (power_post b' e').
Proof.
  intros MP X Y; unfold power_post; rewrite <- (spec_bty_rel _ _ X), <- (spec_bty_rel _ _ Y).
  destruct (spec_bty b); simpl; auto; destruct (spec_bty e); simpl; auto.
  assert (G : @res_rel err _ _ srel
    (res_bind (unwrap_scal e) (fun x => Ok (Raw (vmutate (fun y => fpow y x) (unwrap b)))))
    (res_bind (unwrap_scal e') (fun x => Ok (Raw (vmutate (fun y => fpow y x) (unwrap b')))))).
  { eapply res_bind_rel; [apply unwrap_scal_rel; exact Y|]; intros; simpl; constructor; apply vmutate_rel.
    - intros; apply (rs_pow P may Hr); auto.
    - apply unwrap_rel; auto. }
  assert (R : @res_rel err _ _ srel
    (match b with Full sx fx => if feq fx fone then Ok (Full sx fx) else if feq fx fzero then Ok (Full sx fx)
       else res_bind (unwrap_scal e) (fun x => Ok (Raw (vmutate (fun y => fpow y x) (unwrap b))))
     | _ => res_bind (unwrap_scal e) (fun x => Ok (Raw (vmutate (fun y => fpow y x) (unwrap b)))) end)
    (match b' with Full sx fx => if feq fx fone then Ok (Full sx fx) else if feq fx fzero then Ok (Full sx fx)
       else res_bind (unwrap_scal e') (fun x => Ok (Raw (vmutate (fun y => fpow y x) (unwrap b'))))
     | _ => res_bind (unwrap_scal e') (fun x => Ok (Raw (vmutate (fun y => fpow y x) (unwrap b')))) end)).
  { destruct X as [|t a a' Ha|]; auto.
    rewrite (rs_eq P may Hr a a' fone fone), (rs_eq P may Hr a a' fzero fzero) by auto.
    destruct (feq a' fone); [simpl; constructor; auto|]; destruct (feq a' fzero); [simpl; constructor; auto|exact G]. }
  destruct Y as [|t a a' Ha|]; auto.
  rewrite (rs_eq P may Hr a a' fzero fzero) by auto; destruct (feq a' fzero); [simpl; constructor; auto|exact R].
Qed.

Lemma zip_dense_rel f g x y x' y' : (forall a a' b b', P a a' -> P b b' -> P (f a b) (g a' b')) ->
  srel x x' -> srel y y' -> res_rel srel (zip_dense f x y) (zip_dense g x' y').
Proof.
  intros H X Y; unfold zip_dense; eapply res_map_rel; [|intros ? ? K; constructor; exact K].
  apply res_unwrap_rel, zip_id_rel; auto using unwrap_rel.
Qed.

Lemma full_full_rel sx sy x y : P x y ->
  res_rel srel (res_map (fun sz => Full sz x) (bcast_bty sx sy)) (res_map (fun sz => Full sz y) (bcast_bty sx sy)).
Proof. intro H; eapply res_map_rel; [apply res_rel_eq|]; intros a b ->; constructor; auto. Qed.

Lemma shaped_rel v w t : vrel v w -> res_rel srel (res_map Raw (zip_shape v t)) (res_map Raw (zip_shape w t)).
Proof. intro H; eapply res_map_rel; [apply zip_shape_rel; exact H|]; intros; constructor; auto. Qed.

Lemma add_match_rel x y x' y' : srel x x' -> srel y y' -> res_rel srel (add_match x y) (add_match x' y').
Proof.
  intros X Y; assert (D := zip_dense_rel fadd fadd _ _ _ _ add X Y); unfold add_match.
  destruct X as [v w V|t a a' Ha|t a a' Ha], Y as [v' w' V'|u b b' Hb|u b b' Hb]; auto; try (apply full_full_rel; auto).
  - rewrite (is_zero_rel _ _ Hb); destruct (is_zero b'); auto; apply shaped_rel; auto.
  - rewrite (is_zero_rel _ _ Ha); destruct (is_zero a'); auto; apply res_err_rel, shaped_rel; auto.
Qed.

Lemma sub_match_rel x y x' y' : srel x x' -> srel y y' -> res_rel srel (sub_match x y) (sub_match x' y').
Proof.
  intros X Y; assert (D := zip_dense_rel fsub fsub _ _ _ _ sub X Y); unfold sub_match.
  destruct X as [v w V|t a a' Ha|t a a' Ha], Y as [v' w' V'|u b b' Hb|u b b' Hb]; auto; try (apply full_full_rel; auto).
  rewrite (is_zero_rel _ _ Hb); destruct (is_zero b'); auto; apply shaped_rel; auto.
Qed.

Lemma mul_match_rel x y x' y' : srel x x' -> srel y y' -> res_rel srel (mul_match x y) (mul_match x' y').
Proof.
  intros X Y; assert (D := zip_dense_rel fmul fmul _ _ _ _ mul X Y); unfold mul_match.
  rewrite <- (spec_bty_rel _ _ X), <- (spec_bty_rel _ _ Y).
  destruct X as [v w V|t a a' Ha|t a a' Ha], Y as [v' w' V'|u b b' Hb|u b b' Hb]; auto; try (apply full_full_rel; auto);
    try (rewrite (is_zero_rel _ _ Hb); destruct (is_zero b'); auto; apply full_full_rel; auto);
    try (rewrite (is_zero_rel _ _ Ha); destruct (is_zero a'); auto; apply full_full_rel; auto).
Qed.

Lemma bcast_shape_rel f g : fn_rel f g -> forall h k, fn_rel h k -> forall q : bty -> bty -> res err bty,
  forall c d, crel c d -> run_rel eq (both_shape (f_shape f) (f_shape h) q c) (both_shape (f_shape g) (f_shape k) q d).
Proof.
  intros H h k K q c d C; unfold both_shape.
  apply (run_two eq eq eq); auto; [apply (fr_shape f g H)|apply (fr_shape h k K)|].
  intros a a' b b' -> ->; apply res_rel_eq.
Qed.

Lemma binary_rel f g h k q q' sh : fn_rel f g -> fn_rel h k ->
  (forall x x' y y', srel x x' -> srel y y' -> res_rel srel (q x y) (q' x' y')) ->
  fn_rel {| f_eval := eval_by_spec (both (f_spec f) (f_spec h) q); f_spec := both (f_spec f) (f_spec h) q;
            f_shape := both_shape (f_shape f) (f_shape h) sh |}
         {| f_eval := eval_by_spec (both (f_spec g) (f_spec k) q'); f_spec := both (f_spec g) (f_spec k) q';
            f_shape := both_shape (f_shape g) (f_shape k) sh |}.
Proof.
  intros H K Q.
  assert (Sp : forall c d, crel c d -> run_rel srel (both (f_spec f) (f_spec h) q c) (both (f_spec g) (f_spec k) q' d)).
  { intros c d C; unfold both; apply (run_two srel srel srel); auto; [apply (fr_spec f g H)|apply (fr_spec h k K)]. }
  split; cbn [f_eval f_spec f_shape]; [apply by_spec; exact Sp|exact Sp|apply bcast_shape_rel; auto].
Qed.

Lemma interp_rel n m : node_rel P may n m -> fn_rel (interp n) (interp m).
Proof.
  intro H; induction H; cbn [interp].
  - split; cbn [f_eval f_spec f_shape var_fn]; intros c d C; split; auto; cbn [snd]; apply undef_rel.
    + apply C.
    + unfold read_spec; specialize (C i); destruct (c i), (d i); simpl in *; auto; constructor; auto.
    + rewrite (read_bty_rel c d i C); destruct (read_bty d i); simpl; auto.
  - apply varadj_rel.
  - assert (K : srel (into_spec v) (into_spec w)) by (constructor; auto).
    split; cbn [f_eval f_spec f_shape const_spec_fn]; [apply by_spec|idtac|idtac]; intros c d C; split; auto; simpl; auto.
    apply bty_rel; auto.
  - split; cbn [f_eval f_spec f_shape const_spec_fn]; [apply by_spec|idtac|idtac]; intros c d C; split; auto; simpl; auto.
    apply spec_bty_rel; auto.
  - apply constadj_rel; auto.
  - apply cached_rel; auto.
  - apply unary_rel; auto.
  - apply sum_rel; auto.
  - assert (Sp : forall c d, crel c d -> run_rel srel (both (f_spec (interp l)) (f_spec (interp r)) power_post c)
                                                      (both (f_spec (interp l')) (f_spec (interp r')) power_post d)).
    { intros c d C; unfold both; apply (run_two srel srel srel); auto using power_post_rel;
        [apply (fr_spec _ _ IHnode_rel1)|apply (fr_spec _ _ IHnode_rel2)]. }
    split; cbn [f_eval f_spec f_shape power_fn]; [apply by_spec; exact Sp|exact Sp|].
    intros c d C; split; simpl; auto.
  - apply binary_rel; auto; intros; apply res_err_rel, add_match_rel; auto.
  - apply binary_rel; auto; intros; apply res_err_rel, sub_match_rel; auto.
  - apply binary_rel; auto; intros; apply res_err_rel, mul_match_rel; auto.
  - assert (Ev : forall c d, crel c d -> run_rel vrel (f_eval (div_fn (interp l) (interp r)) c) (f_eval (div_fn (interp l') (interp r')) d)).
    { intros c d C; cbn [f_eval div_fn]; unfold both_eval; apply (run_two vrel vrel vrel); auto;
        [apply (fr_eval _ _ IHnode_rel1)|apply (fr_eval _ _ IHnode_rel2)|].
      intros; apply res_err_rel, zip_id_rel; auto; apply (rs_div P may Hr); auto. }
    split; [exact Ev|apply by_value; exact Ev|cbn [f_shape div_fn]; apply bcast_shape_rel; auto].
  - apply binary_rel; auto; intros; apply res_err_rel, contract_spec_rel; auto.
Qed.

End Generic.
