(** Proofs of C96: the linear regression example in f64 against the same program over the reals. *)
From Coq Require Import List Arith ZArith Reals SpecFloat Bool Lia Lra.
From Flocq Require Import Core.
Import ListNotations.
From Verif Require Import Base Shapes Scalar Buffers Spec Contraction Node Eval Instances
  Real_math Program_math Float_math Enclosure_math Programs Programs_facts Programs_claims
  Float_facts Float_claims Enclosure_claims Scalar_claims Mean_math Mean_claims Drift_math.
Local Open Scope R_scope.

#[local] Notation rnd := (Float_facts.rnd 53 1024).
#[local] Notation u := (/ 2 ^ 53).

Lemma u_val : 0 < u < / 1000000000.
Proof. split; [apply Rinv_0_lt_compat; lra|apply Rinv_lt_contravar; lra]. Qed.

Lemma tiny_small : half_tiny 53 1024 <= u / 1000.
Proof.
  unfold half_tiny; change (Z.to_nat (1024 + 53 - 2)) with 1075%nat.
  replace 1075%nat with (63 + 1012)%nat by reflexivity; rewrite pow_add, Rinv_mult.
  assert (A : 1 <= 2 ^ 1012) by (apply pow_R1_Rle; lra).
  assert (B : / 2 ^ 1012 <= 1) by (rewrite <- Rinv_1; apply Rinv_le_contravar; lra).
  assert (C : / 2 ^ 63 <= u / 1000).
  { unfold Rdiv; rewrite <- Rinv_mult; apply Rinv_le_contravar; lra. }
  assert (D : 0 < / 2 ^ 63) by (apply Rinv_0_lt_compat; lra).
  apply Rle_trans with (/ 2 ^ 63 * 1); [apply Rmult_le_compat_l; lra|lra].
Qed.

(** A float within [e] of [r]. *)
Definition near (x : f64) (r e : R) : Prop := f64_valid x /\ finite x /\ Rabs (f64_real x - r) <= e.

Lemma rounded z t d M : Rabs (z - t) <= d -> Rabs t + d + / 1000 <= M -> M <= 100000 ->
  Rabs (rnd z - t) <= d + u * M /\ Rabs (rnd z) < bpow radix2 1024.
Proof.
  intros Hz Hm Hb.
  assert (E := rnd_error (prec := 53) (emax := 1024) z).
  change (Float_facts.uro 53) with u in E; assert (T := tiny_small); assert (U := u_val).
  assert (Z : Rabs z <= Rabs t + d) by (assert (K := Rabs_triang (z - t) t); replace (z - t + t) with z in K by ring; lra).
  assert (P := Rabs_pos z).
  assert (E1 : Rabs (rnd z - z) <= u * M) by nra.
  assert (E2 : Rabs (rnd z - t) <= d + u * M).
  { assert (K := Rabs_triang (rnd z - z) (z - t)); replace (rnd z - z + (z - t)) with (rnd z - t) in K by ring; lra. }
  split; [exact E2|].
  apply Rlt_le_trans with (bpow radix2 20); [|apply bpow_le; lia].
  change (bpow radix2 20) with (IZR (2 ^ 20)).
  assert (K := Rabs_triang (rnd z - t) t); replace (rnd z - t + t) with (rnd z) in K by ring.
  assert (Q := Rabs_pos t); assert (V : u * M <= 1) by nra.
  apply Rle_lt_trans with (1 := K); change (2 ^ 20)%Z with 1048576%Z; lra.
Qed.

Lemma near_add x r e y s f M : near x r e -> near y s f -> Rabs (r + s) + (e + f) + / 1000 <= M -> M <= 100000 ->
  near (SFadd 53 1024 x y) (r + s) (e + f + u * M).
Proof.
  intros (Vx & Fx & Ex) (Vy & Fy & Ey) Hm Hb; destruct (add_real x y Vx Vy) as (V & E & G).
  assert (Z : Rabs (f64_real x + f64_real y - (r + s)) <= e + f).
  { replace (f64_real x + f64_real y - (r + s)) with ((f64_real x - r) + (f64_real y - s)) by ring.
    assert (K := Rabs_triang (f64_real x - r) (f64_real y - s)); lra. }
  destruct (rounded _ _ _ _ Z Hm Hb) as [B L]; assert (Fi := G Fx Fy L).
  split; [exact V|split; [exact Fi|rewrite (E Fi); exact B]].
Qed.

Lemma near_sub x r e y s f M : near x r e -> near y s f -> Rabs (r - s) + (e + f) + / 1000 <= M -> M <= 100000 ->
  near (SFsub 53 1024 x y) (r - s) (e + f + u * M).
Proof.
  intros (Vx & Fx & Ex) (Vy & Fy & Ey) Hm Hb; destruct (sub_real x y Vx Vy) as (V & E & G).
  assert (Z : Rabs (f64_real x - f64_real y - (r - s)) <= e + f).
  { replace (f64_real x - f64_real y - (r - s)) with ((f64_real x - r) - (f64_real y - s)) by ring.
    assert (K := Rabs_triang (f64_real x - r) (- (f64_real y - s))); rewrite Rabs_Ropp in K; unfold Rminus at 1; lra. }
  destruct (rounded _ _ _ _ Z Hm Hb) as [B L]; assert (Fi := G Fx Fy L).
  split; [exact V|split; [exact Fi|rewrite (E Fi); exact B]].
Qed.

Lemma near_mul x k y s f d M : near x k 0 -> near y s f -> Rabs k * f <= d -> Rabs (k * s) + d + / 1000 <= M ->
  M <= 100000 -> near (SFmul 53 1024 x y) (k * s) (d + u * M).
Proof.
  intros (Vx & Fx & Ex) (Vy & Fy & Ey) Hd Hm Hb; destruct (mul_real x y Vx Vy) as (V & E & G).
  assert (Ek : f64_real x = k).
  { assert (P := Rabs_pos (f64_real x - k)); assert (Q : Rabs (f64_real x - k) = 0) by lra.
    destruct (Req_dec (f64_real x - k) 0) as [K|K]; [lra|apply Rabs_no_R0 in K; contradiction]. }
  assert (Z : Rabs (f64_real x * f64_real y - k * s) <= d).
  { rewrite Ek; replace (k * f64_real y - k * s) with (k * (f64_real y - s)) by ring; rewrite Rabs_mult.
    apply Rle_trans with (2 := Hd); apply Rmult_le_compat_l; [apply Rabs_pos|exact Ey]. }
  destruct (rounded _ _ _ _ Z Hm Hb) as [B L]; assert (Fi := G Fx Fy L).
  split; [exact V|split; [exact Fi|rewrite (E Fi); exact B]].
Qed.

Definition within (W : R) (x : f64) : Prop := f64_valid x /\ finite x /\ Rabs (f64_real x) <= W.

Lemma within_near W x : within W x -> near x (f64_real x) 0.
Proof. intros (V & Fi & _); split; [exact V|split; [exact Fi|]]; rewrite Rminus_eq_0, Rabs_R0; lra. Qed.

Lemma unit_within x : unit_float x -> within 1 x.
Proof. intro H; exact H. Qed.

(** Inner products. *)
Definition per_term (W : R) : R := u * (31 * W + 2).

Lemma dot_near W : 1 <= W <= 600 -> forall xs ws acc r e (k : nat),
  Forall (within 1) xs -> Forall (within W) ws -> length xs = length ws -> near acc r e ->
  Rabs r <= INR k * W -> e <= INR k * per_term W -> (k + length xs <= 30)%nat ->
  near (fold_left (fun s p => SFadd 53 1024 s (SFmul 53 1024 (fst p) (snd p))) (combine xs ws) acc)
    (r + ip (map f64_real xs) (map f64_real ws)) (e + INR (length xs) * per_term W).
Proof.
  intros HW; induction xs as [|x xs IH]; intros [|w ws] acc r e k Hx Hw L Na Hr He Hk; try discriminate L.
  - cbn [combine fold_left map ip length INR]; rewrite Rplus_0_r, Rmult_0_l, Rplus_0_r; exact Na.
  - inversion Hx as [|x' xs' X Hx']; subst x' xs'; inversion Hw as [|w' ws' Y Hw']; subst w' ws'.
    cbn [combine fold_left map ip fst snd]; change (length (x :: xs)) with (Datatypes.S (length xs)) in *.
    assert (U := u_val); assert (K30 : INR k <= 29).
    { replace 29 with (INR 29) by (simpl; lra); apply le_INR; lia. }
    assert (K0 := pos_INR k).
    assert (P1 : per_term W <= u * 18602) by (unfold per_term; nra).
    assert (P0 : 0 <= per_term W) by (unfold per_term; nra).
    assert (A : Rabs (f64_real x * f64_real w) <= W).
    { rewrite Rabs_mult; destruct X as (_ & _ & X), Y as (_ & _ & Y).
      assert (Q := Rabs_pos (f64_real x)); assert (Q' := Rabs_pos (f64_real w)); nra. }
    assert (Np : near (SFmul 53 1024 x w) (f64_real x * f64_real w) (0 + u * (W + / 1000))).
    { apply (near_mul x _ w _ 0); [apply (within_near 1), X|apply (within_near W), Y|lra|lra|lra]. }
    assert (Ke : e <= / 1000) by nra.
    assert (Kr : Rabs r <= 29 * W) by nra.
    assert (Ku : u * (W + / 1000) <= / 1000) by nra.
    assert (Ns := near_add _ _ _ _ _ _ (30 * W + 1) Na Np).
    assert (T := Rabs_triang r (f64_real x * f64_real w)).
    assert (Ns' := Ns ltac:(lra) ltac:(lra)); clear Ns.
    assert (Ns : near (SFadd 53 1024 acc (SFmul 53 1024 x w)) (r + f64_real x * f64_real w) (e + per_term W)).
    { destruct Ns' as (N1 & N2 & N3); split; [exact N1|split; [exact N2|]]; unfold per_term; nra. }
    injection L as L.
    assert (F := IH ws _ _ _ (Datatypes.S k) Hx' Hw' L Ns).
    rewrite !S_INR in *.
    replace (r + (f64_real x * f64_real w + ip (map f64_real xs) (map f64_real ws)))
      with (r + f64_real x * f64_real w + ip (map f64_real xs) (map f64_real ws)) by ring.
    replace (e + (INR (length xs) + 1) * per_term W) with (e + per_term W + INR (length xs) * per_term W) by ring.
    apply F; [nra|nra|lia].
Qed.

Lemma ip_bound W xs : 0 <= W -> forall ws, Forall (within 1) xs -> Forall (within W) ws ->
  Rabs (ip (map f64_real xs) (map f64_real ws)) <= INR (length xs) * W.
Proof.
  intro HW; induction xs as [|x xs IH]; intros [|w ws] Hx Hw; cbn [map ip]; rewrite ?Rabs_R0; [cbn; lra|cbn; lra| |].
  - change (length (x :: xs)) with (Datatypes.S (length xs)); rewrite S_INR; assert (H := pos_INR (length xs)); nra.
  - inversion Hx as [|x' xs' X Hx']; subst x' xs'; inversion Hw as [|w' ws' Y Hw']; subst w' ws'.
    change (length (x :: xs)) with (Datatypes.S (length xs)); rewrite S_INR; specialize (IH ws Hx' Hw').
    assert (T := Rabs_triang (f64_real x * f64_real w) (ip (map f64_real xs) (map f64_real ws))).
    assert (A : Rabs (f64_real x * f64_real w) <= W).
    { rewrite Rabs_mult; destruct X as (_ & _ & X), Y as (_ & _ & Y).
      assert (Q := Rabs_pos (f64_real x)); assert (Q' := Rabs_pos (f64_real w)); nra. }
    lra.
Qed.

(** One step. *)
Lemma hundredth_real : 1 / 100 <= f64_real hundredth <= 101 / 10000.
Proof.
  cbn [hundredth f64_real]; replace (powerRZ 2 (-59)) with (/ 576460752303423488).
  - split; lra.
  - cbn [powerRZ]; f_equal; rewrite pow_IZR; reflexivity.
Qed.

Lemma hundredth_near : near hundredth (f64_real hundredth) 0.
Proof. split; [reflexivity|split; [exact Logic.I|]]; rewrite Rminus_eq_0, Rabs_R0; lra. Qed.

Lemma two_near : near (SFadd 53 1024 (f64_of_Z 1) (f64_of_Z 1)) 2 0.
Proof.
  split; [reflexivity|split; [vm_compute; exact Logic.I|]].
  replace (f64_real _) with 2; [rewrite Rminus_eq_0, Rabs_R0; lra|].
  replace (SFadd 53 1024 (f64_of_Z 1) (f64_of_Z 1)) with (S754_finite false 4503599627370496 (-51)) by (vm_compute; reflexivity).
  cbn [f64_real powerRZ]; rewrite pow_IZR; change (2 ^ Z.of_nat (Pos.to_nat 51))%Z with 2251799813685248%Z; lra.
Qed.

Lemma near_weaken x r e e' : near x r e -> e <= e' -> near x r e'.
Proof. intros (V & Fi & E) L; split; [exact V|split; [exact Fi|lra]]. Qed.

Lemma scale_le a b e d : a <= b -> 0 <= e -> b * e <= d -> a * e <= d.
Proof. intros; nra. Qed.

Lemma coordinate e s x w : near e s (18063 * u) -> Rabs s <= 540 -> within 1 x -> within 8 w ->
  near (SFsub 53 1024 w (SFmul 53 1024 hundredth (SFmul 53 1024 e x)))
    (f64_real w + - (f64_real hundredth * s) * f64_real x) (209 * u).
Proof.
  intros Ne Hs X Y; assert (U := u_val); assert (H := hundredth_real).
  assert (Ax : Rabs (f64_real x) <= 1) by apply X; assert (Px := Rabs_pos (f64_real x)); assert (Ps := Rabs_pos s).
  assert (Aw : Rabs (f64_real w) <= 8) by apply Y.
  rewrite (f64_mul_comm e x).
  assert (Exs : Rabs (f64_real x * s) <= 540) by (rewrite Rabs_mult; nra).
  assert (N1 : near (SFmul 53 1024 x e) (f64_real x * s) (18063 * u + u * 541)).
  { apply (near_mul x _ e s (18063 * u)); [apply (within_near 1 x X)|exact Ne| |lra|lra].
    apply (scale_le _ 1); [exact Ax|lra|lra]. }
  assert (Ehs : Rabs (f64_real hundredth * (f64_real x * s)) <= 546 / 100).
  { rewrite Rabs_mult, (Rabs_pos_eq (f64_real hundredth)) by lra; assert (Q := Rabs_pos (f64_real x * s)); nra. }
  assert (N2' : near (SFmul 53 1024 hundredth (SFmul 53 1024 x e)) (f64_real hundredth * (f64_real x * s)) (188 * u + u * 6)).
  { apply (near_mul hundredth _ _ _ (18063 * u + u * 541)); [apply hundredth_near|exact N1| |lra|lra].
    apply (scale_le _ (101 / 10000)); [rewrite Rabs_pos_eq by lra; lra|lra|lra]. }
  assert (T := Rabs_triang (f64_real w) (- (f64_real hundredth * (f64_real x * s)))); rewrite Rabs_Ropp in T.
  assert (N3 := near_sub _ _ _ _ _ _ 15 (within_near 8 w Y) N2' ltac:(unfold Rminus; lra) ltac:(lra)).
  replace (f64_real w + - (f64_real hundredth * s) * f64_real x)
    with (f64_real w - f64_real hundredth * (f64_real x * s)) by ring.
  apply (near_weaken _ _ _ _ N3); lra.
Qed.

Definition sound (x : f64) : Prop := f64_valid x /\ finite x.

Lemma moved e s : near e s (18063 * u) -> Rabs s <= 540 -> forall xs ws, length xs = length ws ->
  Forall (within 1) xs -> Forall (within 8) ws ->
  let out := map (fun p => SFsub 53 1024 (fst p) (SFmul 53 1024 hundredth (snd p)))
                 (combine ws (map (SFmul 53 1024 e) xs)) in
  Forall sound out /\ length out = length ws /\
  dist2 (map f64_real out) (move (- (f64_real hundredth * s)) (map f64_real ws) (map f64_real xs))
    <= INR (length ws) * (209 * u * (209 * u)).
Proof.
  intros Ne Hs; induction xs as [|x xs IH]; intros [|w ws] L Hx Hw; try discriminate L.
  - cbn; repeat split; [constructor|lra].
  - inversion Hx as [|x' xs' X Hx']; subst x' xs'; inversion Hw as [|w' ws' Y Hw']; subst w' ws'.
    injection L as L; destruct (IH ws L Hx' Hw') as (I1 & I2 & I3).
    destruct (coordinate e s x w Ne Hs X Y) as (V & Fi & B).
    cbn [map combine fst snd]; split; [constructor; [split; assumption|exact I1]|].
    cbn [length]; split; [f_equal; exact I2|].
    cbn [move dist2]; rewrite S_INR.
    match goal with |- ?a * ?a + _ <= _ => assert (Q : a * a <= 209 * u * (209 * u)) end; [|lra].
    match goal with |- ?a * ?a <= _ => replace (a * a) with (Rabs a * Rabs a) by (rewrite <- Rabs_mult; apply Rabs_pos_eq, Rle_0_sqr) end; apply Rmult_le_compat; try apply Rabs_pos; exact B.
Qed.

Section Program.
Variables (pow : f64 -> f64 -> f64) (lib : libfn -> f64 -> f64).
#[local] Instance d64 : Scalar f64 := f64_scalar pow lib.

Lemma product_near W xs ws : 1 <= W <= 600 -> Forall (within 1) xs -> Forall (within W) ws ->
  length xs = length ws -> (length xs <= 30)%nat ->
  near (dotted xs ws) (ip (map f64_real xs) (map f64_real ws)) (30 * per_term W).
Proof.
  intros HW Hx Hw L N.
  assert (Z : near f64_zero 0 0) by (split; [reflexivity|split; [exact Logic.I|]]; cbn; rewrite Rminus_eq_0, Rabs_R0; lra).
  assert (D := dot_near W HW xs ws f64_zero 0 0 0%nat Hx Hw L Z).
  rewrite Rplus_0_l in D; apply near_weaken with (1 := D ltac:(rewrite Rabs_R0; cbn; lra) ltac:(cbn; lra) N).
  assert (K : INR (length xs) <= 30) by (replace 30 with (INR 30) by (simpl; lra); apply le_INR, N).
  assert (P : 0 <= per_term W) by (unfold per_term; assert (U := u_val); nra).
  nra.
Qed.

Lemma step_near tw ws xs : length xs = length tw -> length ws = length tw -> (length tw <= 30)%nat ->
  Forall (within 1) xs -> Forall (within 1) tw -> Forall (within 8) ws ->
  exists out, linear_step linear_auto hundredth tw ws xs = Ok out /\ Forall sound out /\ length out = length ws /\
    dist2 (map f64_real out)
      (lms (f64_real hundredth) (map f64_real tw) (map f64_real ws) (map f64_real xs)) <= / 2 ^ 42 * / 2 ^ 42.
Proof.
  intros Lx Lw N Hx Ht Hw.
  assert (U := u_val).
  assert (K : 0 <= INR (length xs) <= 30).
  { split; [apply pos_INR|]; replace 30 with (INR 30) by (simpl; lra); apply le_INR; lia. }
  set (e := SFmul 53 1024 (SFadd 53 1024 (f64_of_Z 1) (f64_of_Z 1)) (SFsub 53 1024 (dotted xs ws) (dotted xs tw))).
  set (s := 2 * (ip (map f64_real xs) (map f64_real ws) - ip (map f64_real xs) (map f64_real tw))).
  assert (B1 := ip_bound 8 xs ltac:(lra) ws Hx Hw); assert (B2 := ip_bound 1 xs ltac:(lra) tw Hx Ht).
  assert (B3 : Rabs (ip (map f64_real xs) (map f64_real ws) - ip (map f64_real xs) (map f64_real tw)) <= 270).
  { assert (T := Rabs_triang (ip (map f64_real xs) (map f64_real ws)) (- ip (map f64_real xs) (map f64_real tw))).
    rewrite Rabs_Ropp in T; unfold Rminus; nra. }
  assert (Hs : Rabs s <= 540) by (unfold s; rewrite Rabs_mult, (Rabs_pos_eq 2) by lra; lra).
  assert (Ne : near e s (18063 * u)).
  { assert (P1 := product_near 8 xs ws ltac:(lra) Hx Hw ltac:(congruence) ltac:(lia)).
    assert (P2 := product_near 1 xs tw ltac:(lra) Hx Ht ltac:(congruence) ltac:(lia)).
    unfold per_term in P1, P2.
    assert (P3 := near_sub _ _ _ _ _ _ 271 P1 P2 ltac:(lra) ltac:(lra)).
    apply near_weaken with (17522 * u + u * 541); [|lra].
    apply (near_mul _ 2 _ _ _ (17522 * u) 541 two_near P3).
    - rewrite Rabs_pos_eq by lra; lra.
    - fold s; lra.
    - lra. }
  destruct (moved e s Ne Hs xs ws ltac:(congruence) Hx Hw) as (M1 & M2 & M3).
  exists (map (fun p => SFsub 53 1024 (fst p) (SFmul 53 1024 hundredth (snd p))) (combine ws (map (SFmul 53 1024 e) xs))).
  split; [|split; [exact M1|split; [exact M2|]]].
  - rewrite (step_by _ (fun y => map (fun x => fmul (fmul ftwo (fsub (dotted xs ws) y)) (fmul x fone)) xs)).
    + unfold descend; do 3 f_equal; apply map_ext_in; intros x Ix; cbn [fmul fone ftwo fadd fsub d64].
      change (@fone f64 d64) with (f64_of_Z 1); change (@fmul f64 d64) with (SFmul 53 1024).
      rewrite (f64_mul_comm x), SFmul_one; [reflexivity|].
      rewrite Forall_forall in Hx; apply (Hx x Ix).
    + intro y; apply auto_linear; [congruence|reflexivity].
    + intro y; rewrite map_length; congruence.
  - apply Rle_trans with (1 := M3).
    replace (/ 2 ^ 42) with (2048 * u) by (rewrite <- (Rinv_inv 2048), <- Rinv_mult; f_equal; lra).
    assert (KW : INR (length ws) <= 30) by (replace 30 with (INR 30) by (simpl; lra); apply le_INR; lia).
    assert (Q : 0 < u * u) by nra.
    replace (209 * u * (209 * u)) with (43681 * (u * u)) by ring.
    replace (2048 * u * (2048 * u)) with (4194304 * (u * u)) by ring; nra.
Qed.
End Program.

(** The real algorithm moves two points no further apart. *)
Lemma dist_moves k j a : forall b xs, length b = length a -> length xs = length a ->
  dist2 (move k a xs) (move j b xs) =
  dist2 a b + 2 * (k - j) * (ip xs a - ip xs b) + (k - j) * (k - j) * ip xs xs.
Proof.
  induction a as [|w a IH]; intros [|v b] [|x xs] Lb Lx; try discriminate; cbn [move dist2 ip]; [ring|].
  rewrite IH by (injection Lx; injection Lb; auto); ring.
Qed.

Lemma lms_nonexpansive rate tw a b xs : 0 <= rate -> rate * ip xs xs <= 1 -> length b = length a -> length xs = length a ->
  dist2 (lms rate tw a xs) (lms rate tw b xs) <= dist2 a b.
Proof.
  intros Hr Hx Lb Lx; unfold lms; rewrite dist_moves by assumption.
  set (p := ip xs a) in *; set (q := ip xs b) in *; set (t := ip xs tw); set (n := ip xs xs) in *.
  assert (Q : 0 <= (p - q) * (p - q)) by apply Rle_0_sqr.
  assert (R1 : 0 <= rate * ((p - q) * (p - q)) * (1 - rate * n)).
  { apply Rmult_le_pos; [apply Rmult_le_pos; lra|lra]. }
  nra.
Qed.

(** Distances add up. *)
Lemma dist_same a : forall b, length b = length a -> dist2 a b <= 0 -> a = b.
Proof.
  induction a as [|x a IH]; intros [|y b] L H; try discriminate L; [reflexivity|].
  cbn [dist2] in H; assert (P := dist_nonneg a b); assert (Q := Rle_0_sqr (x - y)); unfold Rsqr in Q.
  f_equal; [|apply IH; [injection L; auto|lra]].
  assert (Z : (x - y) * (x - y) = 0) by lra; apply Rmult_integral in Z; lra.
Qed.

Lemma dist_weighted t a : 0 < t -> forall b c, length b = length a -> length c = length a ->
  dist2 a c <= (1 + t) * dist2 a b + (1 + / t) * dist2 b c.
Proof.
  intro Ht; induction a as [|x a IH]; intros [|y b] [|z c] Lb Lc; try discriminate; cbn [dist2]; [lra|].
  assert (I := IH b c ltac:(injection Lb; auto) ltac:(injection Lc; auto)).
  assert (Q : 0 <= / t * ((t * (x - y) - (y - z)) * (t * (x - y) - (y - z)))).
  { apply Rmult_le_pos; [left; apply Rinv_0_lt_compat, Ht|apply Rle_0_sqr]. }
  replace (/ t * ((t * (x - y) - (y - z)) * (t * (x - y) - (y - z))))
    with (t * ((x - y) * (x - y)) - 2 * ((x - y) * (y - z)) + / t * ((y - z) * (y - z))) in Q by (field; lra).
  nra.
Qed.

Lemma dist_triangle p q a b c : 0 <= p -> 0 <= q -> length b = length a -> length c = length a ->
  dist2 a b <= p * p -> dist2 b c <= q * q -> dist2 a c <= (p + q) * (p + q).
Proof.
  intros [Hp|<-] Hq Lb Lc A B; [destruct Hq as [Hq|<-]|].
  - assert (T : 0 < q / p) by (apply Rdiv_lt_0_compat; assumption).
    assert (W := dist_weighted (q / p) a T b c Lb Lc).
    replace (/ (q / p)) with (p / q) in W by (field; lra).
    assert (T' : 0 < p / q) by (apply Rdiv_lt_0_compat; assumption).
    apply Rle_trans with (1 := W).
    replace ((p + q) * (p + q)) with ((1 + q / p) * (p * p) + (1 + p / q) * (q * q)) by (field; lra).
    apply Rplus_le_compat; apply Rmult_le_compat_l; lra.
  - rewrite <- (dist_same b c) by (congruence || lra); lra.
  - rewrite (dist_same a b) by (congruence || lra); lra.
Qed.

Lemma within_of_dist tw : forall ws q, 0 <= q -> length ws = length tw -> Forall (within 1) tw -> Forall sound ws ->
  dist2 (map f64_real ws) (map f64_real tw) <= q * q -> Forall (within (1 + q)) ws.
Proof.
  induction tw as [|t tw IH]; intros [|w ws] q Hq L Ht Hw D; try discriminate L; constructor;
    inversion Ht as [|t' tw' T Ht']; subst t' tw'; inversion Hw as [|w' ws' Y Hw']; subst w' ws'; cbn [map dist2] in D.
  - assert (P := dist_nonneg (map f64_real ws) (map f64_real tw)).
    destruct Y as [V Fi]; split; [exact V|split; [exact Fi|]].
    assert (A : Rabs (f64_real w - f64_real t) <= q).
    { rewrite <- (Rabs_pos_eq q Hq); apply Rsqr_le_abs_0; unfold Rsqr; lra. }
    destruct T as (_ & _ & T).
    assert (K := Rabs_triang (f64_real w - f64_real t) (f64_real t)).
    replace (f64_real w - f64_real t + f64_real t) with (f64_real w) in K by ring; lra.
  - apply IH; auto.
    assert (Q := Rle_0_sqr (f64_real w - f64_real t)); unfold Rsqr in Q; lra.
Qed.

Lemma unit_square xs : Forall (within 1) xs -> ip (map f64_real xs) (map f64_real xs) <= INR (length xs).
Proof.
  intro H; assert (B := ip_bound 1 xs ltac:(lra) xs H H); assert (K := Rle_abs (ip (map f64_real xs) (map f64_real xs))); lra.
Qed.

Section Run.
Variables (pow : f64 -> f64 -> f64) (lib : libfn -> f64 -> f64).
#[local] Instance e64 : Scalar f64 := f64_scalar pow lib.
Variable tw : list f64.
Hypothesis N : (length tw <= 30)%nat.
Hypothesis Ht : Forall (within 1) tw.
Notation rate := (f64_real hundredth).
Notation tr := (map f64_real tw).

Lemma run_near draws : forall ws rs p,
  Forall (fun xs => length xs = length tw /\ Forall (within 1) xs) draws ->
  length ws = length tw -> length rs = length tw -> Forall sound ws ->
  0 <= p -> p + INR (length draws) / 2 ^ 42 <= 1 ->
  dist2 (map f64_real ws) rs <= p * p -> dist2 rs tr <= 30 ->
  exists out, linear_run linear_auto hundredth tw ws draws = Ok out /\ Forall sound out /\ length out = length tw /\
    dist2 (map f64_real out) (lms_all rate tr rs (map (map f64_real) draws)) <=
      (p + INR (length draws) / 2 ^ 42) * (p + INR (length draws) / 2 ^ 42).
Proof.
  induction draws as [|xs draws IH]; intros ws rs p Hd Lw Lr Sw Hp Hn D1 D2.
  - exists ws; split; [reflexivity|split; [exact Sw|split; [exact Lw|]]].
    unfold lms_all; cbn [map fold_left length INR]; unfold Rdiv; rewrite Rmult_0_l, Rplus_0_r; exact D1.
  - inversion Hd as [|? ? [Lx Hx] Hd']; subst.
    change (length (xs :: draws)) with (Datatypes.S (length draws)) in *; rewrite S_INR in *.
    assert (P42 : 0 < / 2 ^ 42) by (apply Rinv_0_lt_compat; lra).
    assert (Pn := pos_INR (length draws)); unfold Rdiv in *.
    assert (Hp1 : p <= 1) by nra.
    assert (Hw : Forall (within 8) ws).
    { eapply Forall_impl; [|apply (within_of_dist tw ws (p + 11 / 2) ltac:(lra) Lw Ht Sw)].
      - intros w (V & Fi & B); split; [exact V|split; [exact Fi|lra]].
      - apply (dist_triangle p (11 / 2) _ rs); rewrite ?map_length; try congruence; lra. }
    destruct (step_near pow lib tw ws xs Lx Lw N Hx Ht Hw) as (w1 & E1 & S1 & L1 & B1).
    assert (HR := hundredth_real); assert (Ux := unit_square xs Hx).
    assert (Kx : rate * ip (map f64_real xs) (map f64_real xs) <= 1).
    { assert (INR (length xs) <= 30) by (replace 30 with (INR 30) by (simpl; lra); apply le_INR; lia).
      destruct (Rle_dec 0 (ip (map f64_real xs) (map f64_real xs))); nra. }
    set (r1 := lms rate tr rs (map f64_real xs)).
    assert (Lr1 : length r1 = length tw) by (unfold r1, lms; rewrite move_length; rewrite ?map_length; congruence).
    assert (D2' : dist2 r1 tr <= 30).
    { unfold r1; rewrite lms_progress by (rewrite ?map_length; congruence).
      assert (Q := Rle_0_sqr (ip (map f64_real xs) rs - ip (map f64_real xs) tr)); unfold Rsqr in Q.
      assert (0 <= 4 * rate * (1 - rate * ip (map f64_real xs) (map f64_real xs)) *
        ((ip (map f64_real xs) rs - ip (map f64_real xs) tr) * (ip (map f64_real xs) rs - ip (map f64_real xs) tr))).
      { apply Rmult_le_pos; [apply Rmult_le_pos; lra|exact Q]. }
      lra. }
    assert (D1' : dist2 (map f64_real w1) r1 <= (/ 2 ^ 42 + p) * (/ 2 ^ 42 + p)).
    { apply (dist_triangle (/ 2 ^ 42) p _ (lms rate tr (map f64_real ws) (map f64_real xs))).
      - lra.
      - exact Hp.
      - unfold lms; rewrite move_length; rewrite ?map_length; congruence.
      - rewrite map_length; congruence.
      - exact B1.
      - apply Rle_trans with (2 := D1); apply lms_nonexpansive; rewrite ?map_length; try congruence; lra. }
    destruct (IH w1 r1 (/ 2 ^ 42 + p) Hd' ltac:(congruence) Lr1 S1 ltac:(lra) ltac:(lra) D1' D2') as (out & E & So & Lo & B).
    exists out; cbn [linear_run]; change (linear_step linear_auto hundredth tw ws xs = Ok w1) in E1; rewrite E1; cbn [res_bind]; split; [exact E|split; [exact So|split; [exact Lo|]]].
    unfold lms_all in *; cbn [map fold_left]; fold r1.
    replace (p + (INR (length draws) + 1) * / 2 ^ 42) with (/ 2 ^ 42 + p + INR (length draws) * / 2 ^ 42) by ring; exact B.
Qed.
End Run.

Section Final.
Variables (pow : f64 -> f64 -> f64) (lib : libfn -> f64 -> f64) (inf : R) (sp : libfn -> R -> R).
Notation FS := (f64_scalar pow lib).
Notation RS := (R_scalar inf sp).
Notation fl_run := (@linear_run f64 FS (@linear_auto f64 FS)).
Notation re_run := (@linear_run R RS (@linear_auto R RS)).

Lemma drift_runs tw ws draws :
  (length tw <= 30)%nat -> Forall unit_float tw -> length ws = length tw ->
  Forall (fun x => f64_valid x /\ finite x) ws -> dist2 (map f64_real ws) (map f64_real tw) <= 30 ->
  Forall (fun xs => length xs = length tw /\ Forall unit_float xs) draws -> INR (length draws) <= 2 ^ 42 ->
  exists out exact,
    fl_run hundredth tw ws draws = Ok out /\
    re_run (f64_real hundredth) (map f64_real tw) (map f64_real ws) (map (map f64_real) draws) = Ok exact /\
    Forall finite out /\ length out = length tw /\
    dist2 (map f64_real out) exact <= (INR (length draws) / 2 ^ 42) ^ 2.
Proof.
  intros N Ht Lw Sw D Hd Hn.
  assert (Z : dist2 (map f64_real ws) (map f64_real ws) <= 0 * 0).
  { generalize (map f64_real ws); intro l; induction l as [|x l IH]; cbn [dist2]; [lra|].
    replace ((x - x) * (x - x)) with 0 by ring; lra. }
  assert (Hn' : 0 + INR (length draws) / 2 ^ 42 <= 1).
  { rewrite Rplus_0_l; apply Rmult_le_reg_r with (2 ^ 42); [lra|]; unfold Rdiv; rewrite Rmult_assoc, Rinv_l by lra; lra. }
  destruct (run_near pow lib tw N Ht draws ws (map f64_real ws) 0 Hd Lw ltac:(rewrite map_length; exact Lw) Sw
    ltac:(lra) Hn' Z D) as (out & E & So & Lo & B).
  destruct (linear_run_lms inf sp (f64_real hundredth) (map f64_real tw) (map (map f64_real) draws) (map f64_real ws)) as [Ex _].
  { apply Forall_forall; intros xs I; apply in_map_iff in I as (ys & <- & I).
    rewrite Forall_forall in Hd; rewrite !map_length; rewrite Lw; apply (Hd ys I). }
  do 2 eexists; split; [exact E|split; [exact Ex|]].
  split; [eapply Forall_impl; [|exact So]; intros x H; apply H|split; [exact Lo|]].
  rewrite Rplus_0_l in B; rewrite <- Rsqr_pow2; exact B.
Qed.

Lemma real_run tw ws draws exact :
  length ws = length tw -> Forall (fun xs => length xs = length tw /\ Forall unit_float xs) draws ->
  re_run (f64_real hundredth) (map f64_real tw) (map f64_real ws) (map (map f64_real) draws) = Ok exact ->
  exact = lms_all (f64_real hundredth) (map f64_real tw) (map f64_real ws) (map (map f64_real) draws) /\
  length exact = length tw.
Proof.
  intros Lw Hd E.
  destruct (linear_run_lms inf sp (f64_real hundredth) (map f64_real tw) (map (map f64_real) draws) (map f64_real ws)) as [Ex L].
  { apply Forall_forall; intros xs I; apply in_map_iff in I as (ys & <- & I).
    rewrite Forall_forall in Hd; rewrite !map_length; rewrite Lw; apply (Hd ys I). }
  assert (X : Ok exact = Ok (lms_all (f64_real hundredth) (map f64_real tw) (map f64_real ws) (map (map f64_real) draws)) :> res err (list R))
    by (rewrite <- E; exact Ex).
  injection X as Hx; split; [exact Hx|]; rewrite Hx; eapply eq_trans; [exact L|]; rewrite map_length; exact Lw.
Qed.

Lemma drift_distance tw ws draws out D :
  (length tw <= 30)%nat -> Forall unit_float tw -> length ws = length tw ->
  Forall (fun x => f64_valid x /\ finite x) ws -> 0 <= D -> D ^ 2 <= 30 ->
  dist2 (map f64_real ws) (map f64_real tw) <= D ^ 2 ->
  Forall (fun xs => length xs = length tw /\ Forall unit_float xs) draws -> INR (length draws) <= 2 ^ 42 ->
  fl_run hundredth tw ws draws = Ok out ->
  dist2 (map f64_real out) (map f64_real tw) <= (D + INR (length draws) / 2 ^ 42) ^ 2.
Proof.
  intros N Ht Lw Sw HD HD30 D0 Hd Hn E.
  destruct (drift_runs tw ws draws N Ht Lw Sw ltac:(lra) Hd Hn) as (out' & exact & E' & Ex & _ & Lo & B).
  rewrite E in E'; injection E' as <-; destruct (real_run tw ws draws exact Lw Hd Ex) as [-> Le].
  rewrite <- Rsqr_pow2 in HD30, D0, B; rewrite <- Rsqr_pow2; unfold Rsqr in *.
  rewrite (Rplus_comm D).
  apply (dist_triangle _ D _ (lms_all (f64_real hundredth) (map f64_real tw) (map f64_real ws) (map (map f64_real) draws))).
  - apply Rmult_le_pos; [apply pos_INR|left; apply Rinv_0_lt_compat; lra].
  - exact HD.
  - rewrite map_length; congruence.
  - rewrite !map_length; congruence.
  - exact B.
  - apply Rle_trans with (2 := D0); assert (HR := hundredth_real).
    assert (C := lms_converges (f64_real hundredth) 30 (map f64_real tw) (map (map f64_real) draws) (map f64_real ws)
      ltac:(lra) ltac:(rewrite !map_length; congruence)).
    assert (C' := C ltac:(apply Forall_forall; intros xs I; apply in_map_iff in I as (ys & <- & I);
      rewrite Forall_forall in Hd; destruct (Hd ys I) as [Ly Uy]; rewrite !map_length; split; [congruence|];
      apply Rle_trans with (1 := unit_square ys Uy); replace 30 with (INR 30) by (simpl; lra); apply le_INR; lia)).
    assert (P := loss_nonneg (f64_real hundredth) (map f64_real tw) (map (map f64_real) draws) (map f64_real ws)).
    assert (P' : 0 <= 4 * f64_real hundredth * (1 - f64_real hundredth * 30) *
      lms_loss (f64_real hundredth) (map f64_real tw) (map f64_real ws) (map (map f64_real) draws))
      by (apply Rmult_le_pos; [apply Rmult_le_pos; lra|exact P]).
    lra.
Qed.

Lemma dist_zero (l : list f64) : dist2 (map f64_real (repeat f64_zero (length l))) (map f64_real l) =
  ip (map f64_real l) (map f64_real l).
Proof. induction l as [|x l IH]; cbn [length repeat map dist2 ip]; [reflexivity|rewrite IH; cbn; ring]. Qed.

Lemma zeros_real n : map f64_real (repeat f64_zero n) = repeat 0 n.
Proof. induction n as [|n IH]; cbn [repeat map]; [reflexivity|rewrite IH; reflexivity]. Qed.

Lemma coordinates d a : 0 <= d -> forall b, length a = length b -> dist2 (map f64_real a) b <= d * d ->
  Forall2 (fun x r => Rabs (f64_real x - r) <= d) a b.
Proof.
  intro Hd; induction a as [|x a IH]; intros [|y b] L H; try discriminate L; constructor; cbn [map dist2] in H.
  - assert (P := dist_nonneg (map f64_real a) b).
    rewrite <- (Rabs_pos_eq d Hd); apply Rsqr_le_abs_0; unfold Rsqr; lra.
  - assert (Q := Rle_0_sqr (f64_real x - y)); unfold Rsqr in Q; apply IH; [injection L; auto|lra].
Qed.

(** examples/linear.rs as it stands. *)
Lemma drift_program tw draws :
  length tw = 30%nat -> Forall unit_float tw -> Z.of_nat (length draws) = 10000000%Z ->
  Forall (fun xs => length xs = 30%nat /\ Forall unit_float xs) draws ->
  exists out exact,
    @linear_main f64 FS hundredth tw draws = Ok out /\
    @linear_main R RS (f64_real hundredth) (map f64_real tw) (map (map f64_real) draws) = Ok exact /\
    Forall finite out /\ Forall2 (fun x r => Rabs (f64_real x - r) <= 23 / 10 ^ 7) out exact.
Proof.
  intros L Ht Hn Hd.
  assert (Nn : INR (length draws) = 10000000) by (rewrite INR_IZR_INZ, Hn; reflexivity).
  assert (Hd' : Forall (fun xs => length xs = length tw /\ Forall unit_float xs) draws)
    by (eapply Forall_impl; [|exact Hd]; intros xs [H H']; split; [congruence|exact H']).
  assert (U := unit_square tw Ht).
  destruct (drift_runs tw (repeat f64_zero (length tw)) draws ltac:(lia) Ht (repeat_length _ _)) as (out & exact & E & Ex & Fi & Lo & B).
  - apply Forall_forall; intros x I; apply repeat_spec in I; subst x; split; [reflexivity|exact Logic.I].
  - rewrite dist_zero; rewrite L in U; simpl in U; lra.
  - exact Hd'.
  - rewrite Nn; lra.
  - exists out, exact; split; [exact E|].
    destruct (real_run tw _ draws exact (repeat_length _ _) Hd' Ex) as [_ Le].
    rewrite zeros_real in Ex; split; [unfold linear_main; rewrite map_length; exact Ex|split; [exact Fi|]].
    apply coordinates; [lra|congruence|].
    apply Rle_trans with (1 := B); rewrite Nn, <- Rsqr_pow2; unfold Rsqr; lra.
Qed.
End Final.

(** What is drawn. *)
Lemma half_valid j : (j <= 53)%nat -> f64_valid (power_of_half j).
Proof. intro H; do 54 (destruct j as [|j]; [reflexivity|]); lia. Qed.

Lemma half_real j : f64_real (power_of_half j) = / 2 ^ j.
Proof.
  unfold power_of_half; cbn [f64_real]; change (Z.pos (2 ^ 52)) with (2 ^ 52)%Z.
  replace (- Z.of_nat j - 52)%Z with (- Z.of_nat (j + 52))%Z by lia.
  rewrite powerRZ_neg', <- pow_powerRZ, pow_add.
  replace (IZR (2 ^ 52)) with (2 ^ 52) by (rewrite pow_IZR; reflexivity).
  assert (H : 2 ^ j <> 0) by (apply pow_nonzero; lra); field; exact H.
Qed.

Lemma drawn i j : (j <= 53)%nat -> (i < 2 ^ j)%nat ->
  let x := SFmul 53 1024 (f64_of_Z (Z.of_nat i)) (power_of_half j) in
  f64_valid x /\ finite x /\ f64_real x = INR i / INR (2 ^ j).
Proof.
  intros Hj Hi x.
  assert (P : INR (2 ^ j) = 2 ^ j) by (rewrite pow_INR; f_equal; simpl; lra).
  assert (Zj : (2 ^ Z.of_nat j <= 2 ^ 53)%Z) by (apply Z.pow_le_mono_r; lia).
  assert (Zi : (Z.of_nat i < 2 ^ Z.of_nat j)%Z).
  { change 2%Z with (Z.of_nat 2); rewrite <- Nat2Z.inj_pow; lia. }
  destruct (of_Z_small (prec := 53) (emax := 1024) (Z.of_nat i)) as [F1 R1]; [lia|].
  destruct (of_Z_real (prec := 53) (emax := 1024) (Z.of_nat i)) as [V1 _].
  destruct (mul_real (f64_of_Z (Z.of_nat i)) (power_of_half j) V1 (half_valid j Hj)) as (V & E & G).
  change (f64_of_Z (Z.of_nat i)) with (float_of_Z 53 1024 (Z.of_nat i)) in *.
  rewrite R1, half_real in E, G.
  assert (Q : IZR (Z.of_nat i) * / 2 ^ j = INR i / INR (2 ^ j)) by (rewrite P, <- INR_IZR_INZ; reflexivity).
  assert (Fm : rnd (IZR (Z.of_nat i) * / 2 ^ j) = IZR (Z.of_nat i) * / 2 ^ j).
  { apply round_generic; [apply valid_rnd_N|].
    apply generic_format_FLT, FLT_spec with (Float radix2 (Z.of_nat i) (- Z.of_nat j)).
    - unfold F2R; cbn [Fnum Fexp]; rewrite bpow_opp, <- IZR_Zpower by lia.
      do 2 f_equal; rewrite pow_IZR; reflexivity.
    - cbn [Fnum]; rewrite Z.abs_eq by lia; change (Zpower radix2 53) with (2 ^ 53)%Z; lia.
    - cbn [Fexp]; lia. }
  assert (B : 0 <= INR i / INR (2 ^ j) <= 1).
  { assert (0 < 2 ^ j) by (apply pow_lt; lra); rewrite P; split.
    - apply Rmult_le_pos; [apply pos_INR|left; apply Rinv_0_lt_compat; lra].
    - apply Rmult_le_reg_r with (2 ^ j); [lra|]; unfold Rdiv; rewrite Rmult_assoc, Rinv_l by lra.
      rewrite Rmult_1_r, Rmult_1_l, <- P; apply le_INR; lia. }
  assert (Fi : finite x).
  { apply G; [exact F1|exact Logic.I|]; rewrite Fm, Q, Rabs_pos_eq by lra.
    apply Rle_lt_trans with 1; [lra|]; change 1 with (bpow radix2 0); apply bpow_lt; lia. }
  split; [exact V|split; [exact Fi|]]; rewrite <- Q, <- Fm; apply E, Fi.
Qed.

Lemma float_grid_real j : (j <= 53)%nat ->
  map f64_real (float_grid j) = grid (2 ^ j) /\ Forall unit_float (float_grid j).
Proof.
  intro Hj; unfold float_grid, grid; split.
  - rewrite map_map; apply map_ext_in; intros i I; apply in_seq in I; apply drawn; [exact Hj|lia].
  - apply Forall_forall; intros x I; apply in_map_iff in I as (i & <- & I); apply in_seq in I.
    destruct (drawn i j Hj ltac:(lia)) as (V & Fi & E); split; [exact V|split; [exact Fi|]]; rewrite E.
    assert (0 < INR (2 ^ j)) by (apply lt_0_INR; lia).
    assert (0 <= INR i <= INR (2 ^ j)) by (split; [apply pos_INR|apply le_INR; lia]).
    rewrite Rabs_pos_eq.
    + apply Rmult_le_reg_r with (INR (2 ^ j)); [lra|]; unfold Rdiv; rewrite Rmult_assoc, Rinv_l by lra; lra.
    + apply Rmult_le_pos; [lra|left; apply Rinv_0_lt_compat; lra].
Qed.

Lemma sequences_map {A B} (f : A -> B) n l : map (map f) (sequences n l) = sequences n (map f l).
Proof.
  induction n as [|n IH]; [reflexivity|]; cbn [sequences]; rewrite <- IH.
  clear IH; generalize (sequences n l); intro q.
  induction l as [|a l IHl]; cbn [flat_map map]; [reflexivity|].
  rewrite map_app, IHl, !map_map; reflexivity.
Qed.

Lemma real_points n j : (j <= 53)%nat -> map (map f64_real) (float_points n j) = points n (2 ^ j).
Proof. intro Hj; unfold float_points, points; rewrite sequences_map, (proj1 (float_grid_real j Hj)); reflexivity. Qed.

Lemma float_draws n m j d : (j <= 53)%nat -> In d (sequences m (float_points n j)) ->
  length d = m /\ Forall (fun xs => length xs = n /\ Forall unit_float xs) d.
Proof.
  intros Hj I; apply sequences_in with (2 := I); apply Forall_forall; intros xs J.
  apply sequences_in with (2 := J); apply float_grid_real, Hj.
Qed.

Lemma mean_factor n : (1 - 4 * f64_real hundredth * (1 - f64_real hundredth * 30) * (1 / 16)) ^ n <= (1 - 7 / 4000) ^ n.
Proof. assert (H := hundredth_real); apply pow_incr; split; nra. Qed.

Section Average.
Variables (pow : f64 -> f64 -> f64) (lib : libfn -> f64 -> f64).
Notation FS := (f64_scalar pow lib).
Notation main := (@linear_main f64 FS hundredth).

Lemma drift_average tw j n :
  length tw = 30%nat -> Forall unit_float tw -> (1 <= j <= 53)%nat -> INR n <= 2 ^ 42 ->
  exists out : list (list f64) -> list f64,
    (forall d, In d (sequences n (float_points 30 j)) -> main tw d = Ok (out d) /\ Forall finite (out d)) /\
    average (fun d => dist2 (map f64_real (out d)) (map f64_real tw)) (sequences n (float_points 30 j)) <=
      2 * ((1 - 7 / 4000) ^ n * ip (map f64_real tw) (map f64_real tw)) + 2 * (INR n / 2 ^ 42) ^ 2.
Proof.
  intros L Ht [J1 J53] Hn.
  exists (fun d => match main tw d with Ok o => o | _ => [] end).
  set (w0 := repeat f64_zero (length tw)).
  assert (L0 : length w0 = length tw) by apply repeat_length.
  assert (S0 : Forall (fun x => f64_valid x /\ finite x) w0).
  { apply Forall_forall; intros x I; apply repeat_spec in I; subst x; split; [reflexivity|exact Logic.I]. }
  assert (U := unit_square tw Ht); rewrite L in U; simpl in U.
  assert (Z := dist_zero tw); fold w0 in Z.
  set (re := fun d => lms_all (f64_real hundredth) (map f64_real tw) (map f64_real w0) (map (map f64_real) d)).
  assert (R1 : forall d, In d (sequences n (float_points 30 j)) -> exists o, main tw d = Ok o /\ Forall finite o /\
    dist2 (map f64_real o) (map f64_real tw) <= 2 * dist2 (re d) (map f64_real tw) + 2 * (INR n / 2 ^ 42) ^ 2).
  { intros d I; destruct (float_draws 30 n j d J53 I) as [Ld Hd]; rewrite <- L in Hd.
    destruct (drift_runs pow lib 0 (fun _ _ => 0) tw w0 d ltac:(lia) Ht L0 S0 ltac:(rewrite Z; lra) Hd ltac:(rewrite Ld; exact Hn))
      as (o & exact & E & Ex & Fi & Lo & B).
    destruct (real_run 0 (fun _ _ => 0) tw w0 d exact L0 Hd Ex) as [-> Le]; fold (re d) in *.
    exists o; split; [exact E|split; [exact Fi|]]; rewrite Ld in B.
    assert (W := dist_weighted 1 (map f64_real o) ltac:(lra) (re d) (map f64_real tw)
      ltac:(rewrite map_length; congruence) ltac:(rewrite !map_length; congruence)).
    rewrite Rinv_1 in W; lra. }
  split; [intros d I; destruct (R1 d I) as (o & E & Fi & _); rewrite E; auto|].
  set (sq := sequences n (float_points 30 j)) in *.
  set (fs := 2 * (INR n / 2 ^ 42) ^ 2) in *.
  assert (A1 : average (fun d => dist2 (re d) (map f64_real tw)) sq <=
    (1 - 7 / 4000) ^ n * ip (map f64_real tw) (map f64_real tw)).
  { assert (Pw : 2 <= INR (2 ^ j)).
    { replace 2 with (INR 2) by (simpl; lra); apply le_INR; change 2%nat with (2 ^ 1)%nat at 1; apply Nat.pow_le_mono_r; lia. }
    assert (E1 : average (fun d => dist2 (re d) (map f64_real tw)) sq =
      average (fun d => dist2 (lms_all (f64_real hundredth) (map f64_real tw) (map f64_real w0) d) (map f64_real tw))
        (sequences n (points 30 (2 ^ j)))).
    { rewrite <- real_points, <- sequences_map by exact J53; unfold average; rewrite map_length, total_map; reflexivity. }
    rewrite E1, <- Z; assert (HR := hundredth_real).
    assert (Gp : Forall (fun xs => length xs = length (map f64_real tw) /\ ip xs xs <= 30) (points 30 (2 ^ j))).
    { rewrite <- real_points by exact J53; apply Forall_forall; intros xs I; apply in_map_iff in I as (ys & <- & I).
      destruct (sequences_in unit_float 30 _ ys (proj2 (float_grid_real j J53)) I) as [Ly Uy].
      rewrite !map_length; split; [congruence|]; apply unit_square in Uy; rewrite Ly in Uy; simpl in Uy; lra. }
    eapply Rle_trans; [apply (mean_run 0 (fun _ _ => 0) (f64_real hundredth) 30 (1 / 16) (map f64_real tw) (map f64_real w0)
      (points 30 (2 ^ j)) n)|].
    - lra.
    - lra.
    - rewrite !map_length; exact L0.
    - intro E; assert (X := sequences_length 30 (grid (2 ^ j))); unfold points in E; rewrite E, grid_length in X.
      assert (0 < INR (2 ^ j) ^ 30) by (apply pow_lt; lra); change (INR (length [])) with 0 in X; lra.
    - exact Gp.
    - intros v Lv; apply points_spread; [apply INR_le; simpl (INR 2); lra|rewrite Lv, map_length; exact L].
    - intros d I; apply linear_run_lms.
      eapply Forall_impl; [|exact (proj2 (sequences_in _ _ _ _ Gp I))]; intros xs [H _]; rewrite H, !map_length; congruence.
    - apply Rmult_le_compat_r; [apply dist_nonneg|apply mean_factor]. }
  assert (C : 0 <= INR (length sq)) by apply pos_INR.
  unfold average in *.
  assert (T : total (fun d => dist2 (map f64_real (match main tw d with Ok o => o | _ => [] end)) (map f64_real tw)) sq <=
    2 * total (fun d => dist2 (re d) (map f64_real tw)) sq + INR (length sq) * fs).
  { rewrite <- total_scale, <- total_const, <- total_plus; apply total_le; intros d I.
    destruct (R1 d I) as (o & E & _ & B); rewrite E; exact B. }
  assert (Ps : 0 < INR (length sq)).
  { unfold sq; rewrite sequences_length; apply pow_lt; unfold float_points; rewrite sequences_length; apply pow_lt.
    unfold float_grid; rewrite map_length, seq_length; apply lt_0_INR; assert (X := Nat.pow_nonzero 2 j ltac:(lia)); lia. }
  apply Rle_trans with ((2 * total (fun d => dist2 (re d) (map f64_real tw)) sq + INR (length sq) * fs) / INR (length sq)).
  - apply Rmult_le_compat_r; [left; apply Rinv_0_lt_compat; exact Ps|exact T].
  - match goal with |- (2 * ?t + ?m * fs) / _ <= _ => replace ((2 * t + m * fs) / m) with (2 * (t / m) + fs) by (field; lra) end; lra.
Qed.

Lemma power_reciprocal q t n : 0 < q -> 0 < t -> q * (1 + t) = 1 -> q ^ n * (1 + INR n * t) <= 1.
Proof.
  intros Hq Ht E; assert (K := poly n t Ht).
  assert (P : (q * (1 + t)) ^ n = 1) by (rewrite E; apply pow1).
  rewrite Rpow_mult_distr in P; assert (A0 : 0 < q ^ n) by (apply pow_lt; lra).
  rewrite <- P; apply Rmult_le_compat_l; lra.
Qed.

Lemma power_small n : Z.of_nat n = 10000000%Z -> (1 - 7 / 4000) ^ n <= / 10 ^ 17.
Proof.
  intro Hn; assert (Q0 : 0 < 1 - 7 / 4000) by lra; assert (Q1 : (1 - 7 / 4000) * (1 + 7 / 3993) = 1) by field.
  revert Q0 Q1; generalize (1 - 7 / 4000); intros q Q0 Q1.
  assert (D : exists m, n = (m * 20)%nat /\ Z.of_nat m = 500000%Z).
  { exists (Z.to_nat 500000); split; [apply Nat2Z.inj; rewrite Hn, Nat2Z.inj_mul, Z2Nat.id; lia|rewrite Z2Nat.id; lia]. }
  destruct D as (m & -> & Hm); rewrite pow_mult.
  assert (B := power_reciprocal q (7 / 3993) m Q0 ltac:(lra) Q1).
  replace (INR m) with 500000 in B by (rewrite INR_IZR_INZ, Hm; reflexivity).
  assert (A0 : 0 < q ^ m) by (apply pow_lt; exact Q0); revert B A0; generalize (q ^ m); intros a B A0.
  assert (C : a ^ 20 <= (/ 100) ^ 20) by (apply pow_incr; lra).
  rewrite pow_inv in C; apply Rle_trans with (1 := C), Rinv_le_contravar; lra.
Qed.

(** examples/linear.rs as it stands. *)
Lemma drift_average_program tw n :
  length tw = 30%nat -> Forall unit_float tw -> Z.of_nat n = 10000000%Z ->
  exists out : list (list f64) -> list f64,
    (forall d, In d (sequences n (float_points 30 53)) -> main tw d = Ok (out d) /\ Forall finite (out d)) /\
    average (fun d => dist2 (map f64_real (out d)) (map f64_real tw)) (sequences n (float_points 30 53)) <= 11 / 10 ^ 12 /\
    share (fun d => dist2 (map f64_real (out d)) (map f64_real tw)) (/ 10 ^ 8) (sequences n (float_points 30 53)) <= 11 / 10 ^ 4.
Proof.
  intros L Ht Hn.
  assert (Nn : INR n = 10000000) by (rewrite INR_IZR_INZ, Hn; reflexivity).
  destruct (drift_average tw 53 n L Ht ltac:(lia) ltac:(rewrite Nn; lra)) as (out & O & A).
  exists out; split; [exact O|].
  assert (P := power_small n Hn); assert (U := unit_square tw Ht); rewrite L in U; simpl (INR 30) in U.
  assert (P0 : 0 < (1 - 7 / 4000) ^ n) by (apply pow_lt; lra).
  assert (A' : average (fun d => dist2 (map f64_real (out d)) (map f64_real tw)) (sequences n (float_points 30 53)) <= 11 / 10 ^ 12).
  { apply Rle_trans with (1 := A); rewrite Nn.
    assert (Q : (1 - 7 / 4000) ^ n * ip (map f64_real tw) (map f64_real tw) <= / 10 ^ 17 * 30).
    { apply Rle_trans with ((1 - 7 / 4000) ^ n * 30); [apply Rmult_le_compat_l; lra|apply Rmult_le_compat_r; lra]. }
    lra. }
  split; [exact A'|].
  assert (M := markov (fun d => dist2 (map f64_real (out d)) (map f64_real tw)) (/ 10 ^ 8) (sequences n (float_points 30 53))
    (fun d => dist_nonneg _ _)).
  lra.
Qed.
End Average.
