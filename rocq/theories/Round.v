(** * Rounded arithmetic: a model of floating point with relative error u and gradual underflow

    [rounding]: any rounding function with relative error at most u above the underflow threshold phi and absolute error
    at most u*phi below it, exact on int (so: binary64 with any rounding direction as long as nothing overflows,
    u = 2^-53 to nearest, 2^-52 otherwise, phi = 2^-1022; phi = 0 is arithmetic with unbounded exponents), any library
    functions cos and sin with absolute error at most lam, any constants with relative error at most u, and the
    compile-time square root mysqrt with relative error at most 3/2 u (it is not correctly rounded: C41).
    [fl A bd]: the arithmetic of the build bd (Simd.v) of the library on top of it, including the FMA build. *)

From Coq Require Import Reals ZArith List Arith Lia Lra Psatz.
From Verif Require Import Scalar RealOps Spec DftFacts Norm Simd.
Local Open Scope R_scope.

Record rounding := {
  rnd : R -> R;
  f_cos : R -> R;
  f_sin : R -> R;
  f_mysqrt : Z -> R;                                  (* mysqrt(N), a compile-time constant; see C41 for binary64 *)
  c_pi : R; c_sqrt1_2 : R; c_H1X : R; c_H1Y : R;      (* M_PI, M_SQRT1_2, H1X, H1Y *)
  uu : R;
  lam : R;
  phi : R;                                            (* smallest normal number *)
  uu_range : 0 <= uu <= 1 / 8;
  phi_range : 0 <= phi <= / 8796093022208;            (* 2^-43 *)
  rnd_rel : forall x, phi <= Rabs x -> Rabs (rnd x - x) <= uu * Rabs x;
  rnd_abs : forall x, Rabs (rnd x - x) <= uu * (Rabs x + phi);
  rnd_int : forall z, (Z.abs z <= 2 ^ 31)%Z -> rnd (IZR z) = IZR z;
  cos_err : forall t, Rabs (f_cos t - cos t) <= lam;
  sin_err : forall t, Rabs (f_sin t - sin t) <= lam;
  mysqrt_err : forall n, (n <= 24)%nat -> Rabs (f_mysqrt (2 ^ Z.of_nat n) - sqrt (2 ^ n)) <= 3 / 2 * uu * sqrt (2 ^ n);
  pi_err : Rabs (c_pi - PI) <= uu * PI;
  sqrt1_2_err : Rabs (c_sqrt1_2 - / sqrt 2) <= uu * / sqrt 2;
  H1X_err : Rabs (c_H1X - cos (PI / 8)) <= uu * Rabs (cos (PI / 8));
  H1Y_err : Rabs (c_H1Y - - sin (PI / 8)) <= uu * Rabs (sin (PI / 8))
}.

Definition rops (A : rounding) : Ops := {|
  Sc := R;
  sadd := fun x y => rnd A (x + y); ssub := fun x y => rnd A (x - y);
  smul := fun x y => rnd A (x * y); sdiv := fun x y => rnd A (x / y); sneg := Ropp;
  ssqrt := fun x => rnd A (sqrt x); smysqrt := f_mysqrt A; scos := f_cos A; ssin := f_sin A; sofZ := fun z => rnd A (IZR z);
  spi := c_pi A; ssqrt1_2 := c_sqrt1_2 A; sH1X := c_H1X A; sH1Y := c_H1Y A;
  (* these six are replaced by [build_ops] below *)
  smulre := fun a b x y => rnd A (rnd A (a * x) - rnd A (b * y)); smulim := fun a b x y => rnd A (rnd A (a * y) + rnd A (b * x));
  sv8re := fun x y => rnd A (c_sqrt1_2 A * rnd A (x - y)); sv8im := fun x y => rnd A (c_sqrt1_2 A * rnd A (x + y));
  sw8re := fun x y => rnd A (c_sqrt1_2 A * rnd A (x + y)); sw8im := fun x y => rnd A (c_sqrt1_2 A * rnd A (y - x)) |}.
Definition fl (A : rounding) (bd : build) : Ops :=
  @build_ops (rops A) (fun x y z => rnd A (x * y + z)) (fun x y z => rnd A (x * y - z)) bd.

Section Round.
Variables (A : rounding) (bd : build).
Notation u := (uu A).
Notation U := (1 + uu A).
Notation rd := (rnd A).
Notation ph := (phi A).
Notation F := (fl A bd).

(** error bound of a table entry *)
Definition tau : R := 2 * PI * (U ^ 5 - 1) + 2 * lam A.
Notation T := (1 + tau).

Lemma u0 : 0 <= u. Proof. apply (uu_range A). Qed.
Lemma U1 : 1 <= U. Proof. pose proof u0. lra. Qed.
Lemma lam0 : 0 <= lam A.
Proof. pose proof (cos_err A 0). pose proof (Rabs_pos (f_cos A 0 - cos 0)). lra. Qed.
Lemma pow_ge1 x n : 1 <= x -> 1 <= x ^ n.
Proof. intros H. apply pow_R1_Rle. exact H. Qed.
Lemma T1 : 1 <= T.
Proof.
  unfold tau. pose proof PI_RGT_0. pose proof lam0. pose proof (pow_ge1 U 5 U1). 
  assert (0 <= 2 * PI * (U ^ 5 - 1)) by (apply Rmult_le_pos; lra). lra.
Qed.

(** ** relative error of real operations *)
Definition rel (k : nat) (x' x : R) : Prop := Rabs (x' - x) <= (U ^ k - 1) * Rabs x.
Lemma rel_0 x : rel 0 x x.
Proof. unfold rel. rewrite Rminus_diag_eq by auto. rewrite Rabs_R0. cbn. lra. Qed.
Lemma Uk_pos k : 0 < U ^ k.
Proof. apply pow_lt. pose proof u0. lra. Qed.
Lemma rel_abs k x' x : rel k x' x -> Rabs x' <= U ^ k * Rabs x.
Proof.
  unfold rel. intros H. replace x' with ((x' - x) + x) by ring. pose proof (Rabs_triang (x' - x) x). pose proof (Rabs_pos x). lra.
Qed.
(** numbers that are far from underflow *)
Definition big (x : R) : Prop := x = 0 \/ / 1099511627776 <= Rabs x.
Lemma ph0 : 0 <= ph. Proof. apply (phi_range A). Qed.
Lemma rnd_0 : rd 0 = 0.
Proof. apply (rnd_int A 0). cbn. lia. Qed.
Lemma Uk_5 k : (k <= 5)%nat -> U ^ k <= 15 / 8.
Proof.
  intros Hk. apply Rle_trans with (U ^ 5); [apply Rle_pow; [apply U1|exact Hk]|]. pose proof (uu_range A).
  assert (U ^ 5 <= (9 / 8) ^ 5) by (apply pow_incr; lra). cbn [pow] in *. lra.
Qed.
Lemma rel_rnd k x' x : (k <= 5)%nat -> big x -> rel k x' x -> rel (S k) (rd x') x.
Proof.
  intros Hk [-> | Hb] H.
  { unfold rel in *. rewrite Rabs_R0, Rmult_0_r in *. rewrite Rminus_0_r in *. pose proof (Rabs_pos x') as Hp.
    assert (E : Rabs x' = 0) by lra. destruct (Req_dec x' 0) as [-> | Hn]; [|apply Rabs_pos_lt in Hn; lra]. rewrite rnd_0, Rabs_R0. lra. }
  pose proof (rel_abs _ _ _ H) as Ha. unfold rel in *. pose proof (Uk_5 k Hk) as H5.
  assert (Hm : ph <= Rabs x').
  { pose proof (phi_range A). pose proof (Rabs_triang (x' - (x' - x)) (x' - x)) as Ht.
    assert (Rabs x <= Rabs x' + Rabs (x' - x)). { replace x with (x' + - (x' - x)) at 1 by ring. eapply Rle_trans; [apply Rabs_triang|]. rewrite Rabs_Ropp. lra. }
    pose proof (Rabs_pos x). nra. }
  pose proof (rnd_rel A x' Hm) as Hr.
  replace (rd x' - x) with ((rd x' - x') + (x' - x)) by ring.
  pose proof (Rabs_triang (rd x' - x') (x' - x)). pose proof u0. pose proof (Rabs_pos x). cbn [pow]. nra.
Qed.
Lemma rel_mul k j x' x y' y : rel k x' x -> rel j y' y -> rel (k + j) (x' * y') (x * y).
Proof.
  intros Hx Hy. pose proof (rel_abs _ _ _ Hx) as Ha. unfold rel in *. rewrite pow_add, Rabs_mult.
  replace (x' * y' - x * y) with (x' * (y' - y) + (x' - x) * y) by ring.
  pose proof (Rabs_triang (x' * (y' - y)) ((x' - x) * y)) as Ht. rewrite !Rabs_mult in Ht.
  pose proof (Rabs_pos x). pose proof (Rabs_pos y). pose proof (Rabs_pos x'). pose proof (Rabs_pos (y' - y)). pose proof (Rabs_pos (x' - x)).
  pose proof (Uk_pos k). pose proof (Uk_pos j).
  assert (Rabs x' * Rabs (y' - y) <= (U ^ k * Rabs x) * ((U ^ j - 1) * Rabs y)) by (apply Rmult_le_compat; auto).
  assert (Rabs (x' - x) * Rabs y <= ((U ^ k - 1) * Rabs x) * Rabs y) by (apply Rmult_le_compat_r; auto). nra.
Qed.
Lemma rel_mono k j x' x : (k <= j)%nat -> rel k x' x -> rel j x' x.
Proof.
  unfold rel. intros Hk H. eapply Rle_trans; [exact H|]. apply Rmult_le_compat_r; [apply Rabs_pos|].
  pose proof (Rle_pow U k j U1 Hk). lra.
Qed.
Lemma rel_opp k x' x : rel k x' x -> rel k (- x') (- x).
Proof. unfold rel. replace (- x' - - x) with (- (x' - x)) by ring. rewrite !Rabs_Ropp. auto. Qed.
Lemma rel_1 x : big x -> rel 1 (rd x) x.
Proof. intros H. apply rel_rnd; [lia|auto|apply rel_0]. Qed.
(** error relative to |x| + phi *)
Definition relp (k : nat) (x' x : R) : Prop := Rabs (x' - x) <= (U ^ k - 1) * (Rabs x + ph).
Lemma Uk1 k : 1 <= U ^ k. Proof. apply pow_ge1, U1. Qed.
Lemma rel_relp k x' x : rel k x' x -> relp k x' x.
Proof. unfold rel, relp. intros H. eapply Rle_trans; [exact H|]. pose proof (Uk1 k). pose proof ph0. apply Rmult_le_compat_l; lra. Qed.
Lemma relp_abs k x' x : relp k x' x -> Rabs x' + ph <= U ^ k * (Rabs x + ph).
Proof.
  unfold relp. intros H. assert (Rabs x' <= Rabs (x' - x) + Rabs x). { replace x' with ((x' - x) + x) at 1 by ring. apply Rabs_triang. }
  pose proof (Uk1 k). pose proof ph0. lra.
Qed.
Lemma relp_rnd k x' x : relp k x' x -> relp (S k) (rd x') x.
Proof.
  intros H. pose proof (relp_abs _ _ _ H) as Ha. unfold relp in *. pose proof (rnd_abs A x') as Hr.
  replace (rd x' - x) with ((rd x' - x') + (x' - x)) by ring.
  pose proof (Rabs_triang (rd x' - x') (x' - x)). pose proof u0. pose proof (Rabs_pos x). cbn [pow]. nra.
Qed.
Lemma relp_1 x : relp 1 (rd x) x.
Proof. apply relp_rnd, rel_relp, rel_0. Qed.
Lemma relp_mul k j x' x y' y : rel k x' x -> Rabs x <= 1 -> relp j y' y -> relp (k + j) (x' * y') (x * y).
Proof.
  intros Hx H1 Hy. pose proof (rel_abs _ _ _ Hx) as Ha. unfold rel, relp in *. rewrite pow_add, Rabs_mult.
  replace (x' * y' - x * y) with (x' * (y' - y) + (x' - x) * y) by ring.
  pose proof (Rabs_triang (x' * (y' - y)) ((x' - x) * y)) as Ht. rewrite !Rabs_mult in Ht.
  pose proof (Rabs_pos x). pose proof (Rabs_pos y). pose proof (Rabs_pos x'). pose proof (Rabs_pos (y' - y)). pose proof (Rabs_pos (x' - x)).
  pose proof (Uk1 k) as Uk. pose proof (Uk1 j) as Uj. pose proof ph0 as P0.
  assert (Rabs x' * Rabs (y' - y) <= (U ^ k * Rabs x) * ((U ^ j - 1) * (Rabs y + ph))) by (apply Rmult_le_compat; auto).
  assert (Rabs (x' - x) * Rabs y <= ((U ^ k - 1) * Rabs x) * Rabs y) by (apply Rmult_le_compat_r; auto).
  set (a := U ^ k) in *. set (b := U ^ j) in *. set (p := Rabs x) in *. set (q := Rabs y) in *.
  assert (Q : (a - 1) * p * q + a * p * ((b - 1) * (q + ph)) <= (a * b - 1) * (p * q) + a * (b - 1) * (p * ph)) by (apply Req_le; ring).
  assert (p * ph <= ph) by nra. assert (0 <= p * ph) by nra. assert (0 <= a * (b - 1)) by nra. assert (a * (b - 1) <= a * b - 1) by nra.
  assert (a * (b - 1) * (p * ph) <= (a * b - 1) * ph) by (apply Rmult_le_compat; auto). nra.
Qed.
Lemma relp_mono k j x' x : (k <= j)%nat -> relp k x' x -> relp j x' x.
Proof.
  unfold relp. intros Hk H. eapply Rle_trans; [exact H|]. apply Rmult_le_compat_r; [pose proof (Rabs_pos x); pose proof ph0; lra|].
  pose proof (Rle_pow U k j U1 Hk). lra.
Qed.
Lemma rel_c x' x : Rabs (x' - x) <= u * Rabs x -> rel 1 x' x.
Proof. unfold rel. cbn [pow]. intros H. rewrite Rmult_1_r. replace (1 + u - 1) with u by ring. exact H. Qed.
Lemma Rabs_le_inv a b : Rabs a <= b -> - b <= a <= b.
Proof. unfold Rabs. destruct Rcase_abs; lra. Qed.
(** 1/x *)
Lemma rel_inv x' x : 0 < x -> rel 1 x' x -> rel 2 (/ x') (/ x).
Proof.
  intros Hx H. unfold rel in *. cbn [pow] in *. rewrite Rmult_1_r in H. rewrite (Rabs_right x) in H by lra.
  pose proof (uu_range A) as [H0 H1]. apply Rabs_le_inv in H.
  assert (Hx' : 0 < x') by nra.
  rewrite (Rabs_right (/ x)) by (apply Rle_ge, Rlt_le, Rinv_0_lt_compat; auto).
  assert (E : / x' - / x = (x - x') * (/ x * / x')) by (field; lra).
  rewrite E, Rabs_mult. rewrite (Rabs_right (/ x * / x')) by (apply Rle_ge, Rlt_le, Rmult_lt_0_compat; apply Rinv_0_lt_compat; auto).
  assert (Ha : Rabs (x - x') <= u * x) by (apply Rabs_le; lra).
  assert (Hi : x * / x' <= / (1 - u)).
  { apply (Rmult_le_reg_r (x' * (1 - u))); [apply Rmult_lt_0_compat; lra|].
    replace (x * / x' * (x' * (1 - u))) with (x * (1 - u)) by (field; lra).
    replace (/ (1 - u) * (x' * (1 - u))) with x' by (field; lra). nra. }
  assert (Hq : u * / (1 - u) <= (1 + u) * ((1 + u) * 1) - 1).
  { apply (Rmult_le_reg_r (1 - u)); [lra|]. rewrite Rmult_assoc, Rinv_l by lra. nra. }
  assert (Hp : 0 < / x) by (apply Rinv_0_lt_compat; auto). assert (Hp' : 0 < / x') by (apply Rinv_0_lt_compat; auto).
  apply Rle_trans with ((u * x) * (/ x * / x')); [apply Rmult_le_compat_r; [nra|auto]|].
  replace (u * x * (/ x * / x')) with ((u * (x * / x')) * / x) by ring. apply Rmult_le_compat_r; [lra|]. nra.
Qed.
Lemma rel_sqrt x' x : 0 < x -> rel 1 x' x -> rel 1 (sqrt x') (sqrt x).
Proof.
  intros Hx H. unfold rel in *. cbn [pow] in *. rewrite Rmult_1_r in *. rewrite (Rabs_right x) in H by lra.
  pose proof (uu_range A) as [H0 H1]. apply Rabs_le_inv in H. assert (Hx' : 0 < x') by nra.
  pose proof (sqrt_lt_R0 x Hx) as P. pose proof (sqrt_lt_R0 x' Hx') as P'.
  rewrite (Rabs_right (sqrt x)) by lra.
  assert (E : sqrt x * sqrt x = x) by (apply sqrt_def; lra). assert (E' : sqrt x' * sqrt x' = x') by (apply sqrt_def; lra).
  replace (1 + u - 1) with u in * by ring. apply Rabs_le. split.
  - apply Rnot_lt_le. intros C. assert (sqrt x' < (1 - u) * sqrt x) by lra.
    assert (sqrt x' * sqrt x' < ((1 - u) * sqrt x) * ((1 - u) * sqrt x)) by (apply Rmult_le_0_lt_compat; lra). nra.
  - apply Rnot_lt_le. intros C. assert (sqrt x' > (1 + u) * sqrt x) by lra.
    assert (sqrt x' * sqrt x' > ((1 + u) * sqrt x) * ((1 + u) * sqrt x)) by (apply Rmult_le_0_lt_compat; nra). nra.
Qed.

(** 1/x when x has an error of 3/2 u *)
Lemma rel_inv15 x' x : 0 < x -> Rabs (x' - x) <= 3 / 2 * u * x -> rel 2 (/ x') (/ x).
Proof.
  intros Hx H. unfold rel in *. cbn [pow] in *.
  pose proof (uu_range A) as [H0 H1]. apply Rabs_le_inv in H.
  assert (Hx' : 0 < x') by nra.
  rewrite (Rabs_right (/ x)) by (apply Rle_ge, Rlt_le, Rinv_0_lt_compat; auto).
  assert (E : / x' - / x = (x - x') * (/ x * / x')) by (field; lra).
  rewrite E, Rabs_mult. rewrite (Rabs_right (/ x * / x')) by (apply Rle_ge, Rlt_le, Rmult_lt_0_compat; apply Rinv_0_lt_compat; auto).
  set (v := 3 / 2 * u) in *. assert (Hv : 0 <= v <= 3 / 16) by (unfold v; lra).
  assert (Ha : Rabs (x - x') <= v * x) by (apply Rabs_le; lra).
  assert (Hi : x * / x' <= / (1 - v)).
  { apply (Rmult_le_reg_r (x' * (1 - v))); [apply Rmult_lt_0_compat; lra|].
    replace (x * / x' * (x' * (1 - v))) with (x * (1 - v)) by (field; lra).
    replace (/ (1 - v) * (x' * (1 - v))) with x' by (field; lra). nra. }
  assert (Hq : v * / (1 - v) <= (1 + u) * ((1 + u) * 1) - 1).
  { apply (Rmult_le_reg_r (1 - v)); [lra|]. rewrite Rmult_assoc, Rinv_l by lra. unfold v. nra. }
  assert (Hp : 0 < / x) by (apply Rinv_0_lt_compat; auto). assert (Hp' : 0 < / x') by (apply Rinv_0_lt_compat; auto).
  apply Rle_trans with ((v * x) * (/ x * / x')); [apply Rmult_le_compat_r; [nra|auto]|].
  replace (v * x * (/ x * / x')) with ((v * (x * / x')) * / x) by ring. apply Rmult_le_compat_r; [lra|]. nra.
Qed.

(** ** complex operations *)
Definition CR (z : @C F) : CC := z.
Lemma cabs_rel (k : nat) (z' z : CC) : rel k (fst z') (fst z) -> rel k (snd z') (snd z) -> cabs (csub z' z) <= (U ^ k - 1) * cabs z.
Proof.
  intros H1 H2. assert (H0 : 0 <= U ^ k - 1) by (pose proof (pow_ge1 U k U1); lra). set (c := U ^ k - 1) in *.
  unfold rel in *. fold c in H1, H2. apply cabs_le; [pose proof (cabs_pos z); nra|].
  replace (c * cabs z * (c * cabs z)) with (c * c * (cabs z * cabs z)) by ring. rewrite cabs_sq.
  destruct z' as [x' y'], z as [x y]. unfold cnorm2. cbn [fst snd] in H1, H2. creduce.
  assert (S1 : (x' - x) * (x' - x) = Rabs (x' - x) * Rabs (x' - x)) by (rewrite <- Rabs_mult; symmetry; apply Rabs_right; apply Rle_ge; apply Rle_0_sqr).
  assert (S2 : (y' - y) * (y' - y) = Rabs (y' - y) * Rabs (y' - y)) by (rewrite <- Rabs_mult; symmetry; apply Rabs_right; apply Rle_ge; apply Rle_0_sqr).
  assert (S3 : x * x = Rabs x * Rabs x) by (rewrite <- Rabs_mult; symmetry; apply Rabs_right; apply Rle_ge; apply Rle_0_sqr).
  assert (S4 : y * y = Rabs y * Rabs y) by (rewrite <- Rabs_mult; symmetry; apply Rabs_right; apply Rle_ge; apply Rle_0_sqr).
  pose proof (Rabs_pos (x' - x)). pose proof (Rabs_pos (y' - y)).
  assert (Rabs (x' - x) * Rabs (x' - x) <= (c * Rabs x) * (c * Rabs x)) by (apply Rmult_le_compat; auto).
  assert (Rabs (y' - y) * Rabs (y' - y) <= (c * Rabs y) * (c * Rabs y)) by (apply Rmult_le_compat; auto). nra.
Qed.
(** the floor of complex data *)
Definition psi : R := 2 * ph.
Lemma psi0 : 0 <= psi. Proof. unfold psi. pose proof ph0. lra. Qed.
Lemma psi_small : psi <= / 4398046511104. Proof. unfold psi. pose proof (phi_range A). lra. Qed.
Lemma mink (x y f : R) (z : CC) : 0 <= f -> x = Rabs (fst z) -> y = Rabs (snd z) -> sqrt ((x + f) * (x + f) + (y + f) * (y + f)) <= cabs z + 3 / 2 * f.
Proof.
  intros Hf -> ->. pose proof (cabs_pos z) as P. rewrite <- (sqrt_square (cabs z + 3 / 2 * f)) by lra. apply sqrt_le_1_alt.
  replace ((cabs z + 3 / 2 * f) * (cabs z + 3 / 2 * f)) with (cabs z * cabs z + 3 * f * cabs z + 9 / 4 * (f * f)) by field. rewrite cabs_sq.
  destruct z as [a b]. cbn [fst snd].
  assert (S1 : a * a = Rabs a * Rabs a) by (rewrite <- Rabs_mult; symmetry; apply Rabs_right; apply Rle_ge; apply Rle_0_sqr).
  assert (S2 : b * b = Rabs b * Rabs b) by (rewrite <- Rabs_mult; symmetry; apply Rabs_right; apply Rle_ge; apply Rle_0_sqr).
  assert (Hs : Rabs a + Rabs b <= 3 / 2 * cabs (a, b)).
  { apply sq_le; [lra|]. replace (3 / 2 * cabs (a, b) * (3 / 2 * cabs (a, b))) with (9 / 4 * (cabs (a, b) * cabs (a, b))) by field. rewrite cabs_sq. unfold cnorm2. cbn [fst snd].
    rewrite S1, S2. pose proof (Rle_0_sqr (Rabs a - Rabs b)) as Q. unfold Rsqr in Q. nra. }
  unfold cnorm2. cbn [fst snd]. rewrite S1, S2. nra.
Qed.
Lemma cabs_relp (k : nat) (z' z : CC) : relp k (fst z') (fst z) -> relp k (snd z') (snd z) -> cabs (csub z' z) <= (U ^ k - 1) * (cabs z + psi).
Proof.
  intros H1 H2. pose proof (Uk1 k) as Hk. pose proof ph0 as P0. set (c := U ^ k - 1) in *. assert (Hc : 0 <= c) by (unfold c; lra).
  unfold relp in *. fold c in H1, H2.
  eapply Rle_trans; [apply (cabs_comp (csub z' z) (c * (Rabs (fst z) + ph)) (c * (Rabs (snd z) + ph)))|].
  - destruct z', z. exact H1.
  - destruct z', z. exact H2.
  - set (X := Rabs (fst z) + ph). set (Y := Rabs (snd z) + ph).
    replace (c * X * (c * X) + c * Y * (c * Y)) with ((c * c) * (X * X + Y * Y)) by ring.
    rewrite sqrt_mult by nra. rewrite sqrt_square by auto. apply Rmult_le_compat_l; auto.
    eapply Rle_trans; [apply (mink (Rabs (fst z)) (Rabs (snd z)) ph z P0 eq_refl eq_refl)|]. unfold psi. lra.
Qed.
Lemma fl_add (x y : CC) : cabs (@csub ROps (@cadd F x y) (cadd x y)) <= (U ^ 1 - 1) * (cabs (cadd x y) + psi).
Proof. apply cabs_relp; apply relp_1. Qed.
Lemma fl_sub (x y : CC) : cabs (@csub ROps (@csub F x y) (csub x y)) <= (U ^ 1 - 1) * (cabs (csub x y) + psi).
Proof. apply cabs_relp; apply relp_1. Qed.

(** rounded a*x -/+ b*y *)
Lemma two_prod p q : Rabs (rd (rd p + rd q) - (p + q)) <= (U ^ 2 - 1) * (Rabs p + Rabs q + 2 * ph).
Proof.
  pose proof (rnd_abs A p) as Hp. pose proof (rnd_abs A q) as Hq. pose proof (rnd_abs A (rd p + rd q)) as Hs. pose proof u0 as H0. pose proof ph0 as P0.
  assert (Rabs (rd p + rd q) <= U * (Rabs p + Rabs q) + u * (2 * ph)).
  { replace (rd p + rd q) with ((rd p - p) + (rd q - q) + (p + q)) by ring.
    pose proof (Rabs_triang (rd p - p + (rd q - q)) (p + q)). pose proof (Rabs_triang (rd p - p) (rd q - q)). pose proof (Rabs_triang p q). lra. }
  replace (rd (rd p + rd q) - (p + q)) with ((rd (rd p + rd q) - (rd p + rd q)) + ((rd p - p) + (rd q - q))) by ring.
  pose proof (Rabs_triang (rd (rd p + rd q) - (rd p + rd q)) (rd p - p + (rd q - q))). pose proof (Rabs_triang (rd p - p) (rd q - q)).
  pose proof (Rabs_pos p). pose proof (Rabs_pos q). cbn [pow]. nra.
Qed.
Lemma one_prod p q : Rabs (rd (p + rd q) - (p + q)) <= (U ^ 2 - 1) * (Rabs p + Rabs q + 2 * ph).
Proof.
  pose proof (rnd_abs A q) as Hq. pose proof (rnd_abs A (p + rd q)) as Hs. pose proof u0 as H0. pose proof ph0 as P0.
  assert (Rabs (p + rd q) <= U * (Rabs p + Rabs q) + u * (2 * ph)).
  { replace (p + rd q) with ((rd q - q) + (p + q)) by ring.
    pose proof (Rabs_triang (rd q - q) (p + q)). pose proof (Rabs_triang p q). pose proof (Rabs_pos p). nra. }
  replace (rd (p + rd q) - (p + q)) with ((rd (p + rd q) - (p + rd q)) + (rd q - q)) by ring.
  pose proof (Rabs_triang (rd (p + rd q) - (p + rd q)) (rd q - q)).
  pose proof (Rabs_pos p). pose proof (Rabs_pos q). cbn [pow]. nra.
Qed.
Lemma two_prod_m p q : Rabs (rd (rd p - rd q) - (p - q)) <= (U ^ 2 - 1) * (Rabs p + Rabs q + 2 * ph).
Proof.
  pose proof (rnd_abs A p) as Hp. pose proof (rnd_abs A q) as Hq. pose proof (rnd_abs A (rd p - rd q)) as Hs. pose proof u0 as H0. pose proof ph0 as P0.
  assert (Q : Rabs (q - rd q) = Rabs (rd q - q)) by apply Rabs_minus_sym.
  assert (N : Rabs (p - q) <= Rabs p + Rabs q) by (unfold Rminus; eapply Rle_trans; [apply Rabs_triang|]; rewrite Rabs_Ropp; lra).
  assert (Rabs (rd p - rd q) <= U * (Rabs p + Rabs q) + u * (2 * ph)).
  { replace (rd p - rd q) with ((rd p - p) + (q - rd q) + (p - q)) by ring.
    pose proof (Rabs_triang (rd p - p + (q - rd q)) (p - q)). pose proof (Rabs_triang (rd p - p) (q - rd q)). lra. }
  replace (rd (rd p - rd q) - (p - q)) with ((rd (rd p - rd q) - (rd p - rd q)) + ((rd p - p) + (q - rd q))) by ring.
  pose proof (Rabs_triang (rd (rd p - rd q) - (rd p - rd q)) (rd p - p + (q - rd q))). pose proof (Rabs_triang (rd p - p) (q - rd q)).
  pose proof (Rabs_pos p). pose proof (Rabs_pos q). cbn [pow]. nra.
Qed.
Lemma one_prod_m p q : Rabs (rd (p - rd q) - (p - q)) <= (U ^ 2 - 1) * (Rabs p + Rabs q + 2 * ph).
Proof.
  pose proof (rnd_abs A q) as Hq. pose proof (rnd_abs A (p - rd q)) as Hs. pose proof u0 as H0. pose proof ph0 as P0.
  assert (Q : Rabs (q - rd q) = Rabs (rd q - q)) by apply Rabs_minus_sym.
  assert (N : Rabs (p - q) <= Rabs p + Rabs q) by (unfold Rminus; eapply Rle_trans; [apply Rabs_triang|]; rewrite Rabs_Ropp; lra).
  assert (Rabs (p - rd q) <= U * (Rabs p + Rabs q) + u * (2 * ph)).
  { replace (p - rd q) with ((q - rd q) + (p - q)) by ring.
    pose proof (Rabs_triang (q - rd q) (p - q)). pose proof (Rabs_pos p). nra. }
  replace (rd (p - rd q) - (p - q)) with ((rd (p - rd q) - (p - rd q)) + (q - rd q)) by ring.
  pose proof (Rabs_triang (rd (p - rd q) - (p - rd q)) (q - rd q)).
  pose proof (Rabs_pos p). pose proof (Rabs_pos q). cbn [pow]. nra.
Qed.

Lemma mulre_err a b x y : Rabs (@smulre F a b x y - (a * x - b * y)) <= (U ^ 2 - 1) * (Rabs (a * x) + Rabs (b * y) + 2 * ph).
Proof.
  unfold fl, build_ops, set_ops, build_six. cbn [smulre k_mulre]. destruct bd; cbn [sadd ssub smul sneg rops].
  - apply two_prod_m.
  - replace (a * x - b * y) with (a * x + b * - y) by ring. rewrite <- (Rabs_Ropp (b * y)). replace (- (b * y)) with (b * - y) by ring. apply two_prod.
  - apply two_prod_m.
  - apply two_prod_m.
  - apply one_prod_m.
Qed.
Lemma mulim_err a b x y : Rabs (@smulim F a b x y - (a * y + b * x)) <= (U ^ 2 - 1) * (Rabs (a * y) + Rabs (b * x) + 2 * ph).
Proof.
  unfold fl, build_ops, set_ops, build_six. cbn [smulim k_mulim]. destruct bd; cbn [sadd ssub smul sneg rops]; try apply two_prod. apply one_prod.
Qed.
Lemma mul_norm a b x y : (Rabs (a * x) + Rabs (b * y)) * (Rabs (a * x) + Rabs (b * y)) + (Rabs (a * y) + Rabs (b * x)) * (Rabs (a * y) + Rabs (b * x))
  <= 2 * ((a * a + b * b) * (x * x + y * y)).
Proof.
  rewrite !Rabs_mult.
  assert (S : forall t, t * t = Rabs t * Rabs t) by (intros t; rewrite <- Rabs_mult; symmetry; apply Rabs_right; apply Rle_ge; apply Rle_0_sqr).
  rewrite (S a), (S b), (S x), (S y). pose proof (Rabs_pos a). pose proof (Rabs_pos b). pose proof (Rabs_pos x). pose proof (Rabs_pos y).
  set (p := Rabs a) in *. set (q := Rabs b) in *. set (r := Rabs x) in *. set (t := Rabs y) in *.
  pose proof (Rle_0_sqr (p * r - q * t)) as H3. pose proof (Rle_0_sqr (p * t - q * r)) as H4. unfold Rsqr in *. nra.
Qed.
Lemma sqrt2_U : 3 / 2 * (U ^ 2 - 1) <= U ^ 3 - 1.
Proof. pose proof u0. cbn [pow]. nra. Qed.
Lemma sqrt2_15 : sqrt 2 <= 71 / 50.
Proof. apply sq_le; [lra|]. rewrite sqrt_def; lra. Qed.
(** with 71/50 (U^2 - 1) there is room for a floor when |x||y| >= 1 *)
Lemma fl_mul0 (x y : CC) : cabs (@csub ROps (@cmul F x y) (cmul x y)) <= 71 / 50 * (U ^ 2 - 1) * (cabs x * cabs y + psi).
Proof.
  destruct x as [a b], y as [x y].
  pose proof (mulre_err a b x y) as H1. pose proof (mulim_err a b x y) as H2. pose proof ph0 as P0.
  set (p := Rabs (a * x) + Rabs (b * y)) in *. set (q := Rabs (a * y) + Rabs (b * x)) in *.
  assert (Hp : 0 <= p) by (unfold p; pose proof (Rabs_pos (a * x)); pose proof (Rabs_pos (b * y)); lra).
  assert (Hq : 0 <= q) by (unfold q; pose proof (Rabs_pos (a * y)); pose proof (Rabs_pos (b * x)); lra).
  assert (Hc : 0 <= U ^ 2 - 1) by (pose proof (pow_ge1 U 2 U1); lra).
  eapply Rle_trans; [apply (cabs_comp _ ((U ^ 2 - 1) * (p + 2 * ph)) ((U ^ 2 - 1) * (q + 2 * ph))); [exact H1|exact H2]|].
  set (c := U ^ 2 - 1) in *. set (f := 2 * ph) in *. assert (Hf : 0 <= f) by (unfold f; lra).
  replace (c * (p + f) * (c * (p + f)) + c * (q + f) * (c * (q + f))) with ((c * c) * ((p + f) * (p + f) + (q + f) * (q + f))) by ring.
  rewrite sqrt_mult by nra. rewrite sqrt_square by auto. replace (71 / 50 * c * (cabs (a, b) * cabs (x, y) + psi)) with (c * (71 / 50 * (cabs (a, b) * cabs (x, y) + psi))) by ring.
  apply Rmult_le_compat_l; auto.
  pose proof (cabs_pos (a, b)) as C1. pose proof (cabs_pos (x, y)) as C2. change psi with f.
  set (m := cabs (a, b) * cabs (x, y)) in *. assert (Hm0 : 0 <= m) by (unfold m; nra).
  rewrite <- (sqrt_square (71 / 50 * (m + f))) by nra. apply sqrt_le_1_alt.
  pose proof (mul_norm a b x y) as Hm. fold p in Hm. fold q in Hm.
  assert (Em : (a * a + b * b) * (x * x + y * y) = m * m).
  { unfold m. replace (cabs (a, b) * cabs (x, y) * (cabs (a, b) * cabs (x, y))) with ((cabs (a, b) * cabs (a, b)) * (cabs (x, y) * cabs (x, y))) by ring. rewrite !cabs_sq. reflexivity. }
  rewrite Em in Hm. assert (Hs : p + q <= 2 * m).
  { apply sq_le; [lra|]. pose proof (Rle_0_sqr (p - q)) as Q. unfold Rsqr in Q. nra. }
  nra.
Qed.
Lemma fl_mul (x y : CC) : cabs (@csub ROps (@cmul F x y) (cmul x y)) <= (U ^ 3 - 1) * (cabs x * cabs y + psi).
Proof.
  eapply Rle_trans; [apply fl_mul0|]. pose proof (cabs_pos x). pose proof (cabs_pos y). pose proof psi0. pose proof sqrt2_U. pose proof (Uk1 2).
  apply Rmult_le_compat_r; [nra|lra].
Qed.
Lemma fl_mul1 (x y : CC) M : 1 <= M -> cabs x * cabs y <= M -> cabs (@csub ROps (@cmul F x y) (cmul x y)) <= (U ^ 3 - 1) * M.
Proof.
  intros HM H. eapply Rle_trans; [apply fl_mul0|]. pose proof psi0. pose proof psi_small. pose proof sqrt2_U. pose proof (Uk1 2).
  apply Rle_trans with (3 / 2 * (U ^ 2 - 1) * M); [|apply Rmult_le_compat_r; lra].
  set (c := U ^ 2 - 1) in *. assert (Hc : 0 <= c) by (unfold c; lra).
  replace (71 / 50 * c * (cabs x * cabs y + psi)) with (c * (71 / 50 * (cabs x * cabs y + psi))) by ring. replace (3 / 2 * c * M) with (c * (3 / 2 * M)) by ring.
  apply Rmult_le_compat_l; lra.
Qed.

Lemma c_s : rel 1 (c_sqrt1_2 A) (/ sqrt 2).
Proof.
  apply rel_c. rewrite (Rabs_right (/ sqrt 2)); [apply (sqrt1_2_err A)|]. apply Rle_ge, Rlt_le, Rinv_0_lt_compat, sqrt_lt_R0. lra.
Qed.
Lemma rel_sv x : relp 3 (rd (c_sqrt1_2 A * rd x)) (/ sqrt 2 * x).
Proof.
  apply (relp_rnd 2). apply (relp_mul 1 1); [apply c_s| |apply relp_1]. assert (1 <= sqrt 2) by (apply sq_le; [apply sqrt_pos|rewrite sqrt_def; lra]).
  rewrite Rabs_right by (apply Rle_ge, Rlt_le, Rinv_0_lt_compat; lra). rewrite <- Rinv_1. apply Rinv_le_contravar; lra.
Qed.
Lemma fl_v8 (z : CC) : cabs (@csub ROps (@v8x F z) (v8x z)) <= (U ^ 3 - 1) * (cabs z + psi).
Proof.
  replace (cabs z) with (cabs (v8x z)).
  - apply cabs_relp.
    + unfold fl, build_ops, set_ops, build_six, v8x. cbn [fst snd mkC sv8re k_v8re]. destruct bd; cbn [sadd ssub smul sneg ssqrt1_2 rops ROps sv8re]; apply rel_sv.
    + unfold fl, build_ops, set_ops, build_six, v8x. cbn [fst snd mkC sv8im k_v8im]. destruct bd; cbn [sadd ssub smul sneg ssqrt1_2 rops ROps sv8im]; try apply rel_sv;
        rewrite (Rplus_comm (Re z) (Im z)); apply rel_sv.
  - unfold cabs. f_equal. destruct z as [x y]. unfold cnorm2. creduce. assert (E : / sqrt 2 * / sqrt 2 = / 2).
    { rewrite <- Rinv_mult. f_equal. apply sqrt_def. lra. } set (h := / sqrt 2) in *. nra.
Qed.
Lemma fl_w8 (z : CC) : cabs (@csub ROps (@w8x F z) (w8x z)) <= (U ^ 3 - 1) * (cabs z + psi).
Proof.
  replace (cabs z) with (cabs (w8x z)).
  - apply cabs_relp.
    + unfold fl, build_ops, set_ops, build_six, w8x. cbn [fst snd mkC sw8re k_w8re]. cbn [sadd ssub smul sneg ssqrt1_2 rops ROps sw8re]; apply rel_sv.
    + unfold fl, build_ops, set_ops, build_six, w8x. cbn [fst snd mkC sw8im k_w8im]. destruct bd; cbn [sadd ssub smul sneg ssqrt1_2 rops ROps sw8im]; apply rel_sv.
  - unfold cabs. f_equal. destruct z as [x y]. unfold cnorm2. creduce. assert (E : / sqrt 2 * / sqrt 2 = / 2).
    { rewrite <- Rinv_mult. f_equal. apply sqrt_def. lra. } set (h := / sqrt 2) in *. nra.
Qed.
Lemma relp_scal k (r' r x : R) : rel k r' r -> relp (S k) (rd (r' * x)) (r * x).
Proof. intros H. apply relp_rnd, rel_relp. rewrite <- (Nat.add_0_r k). apply rel_mul; [exact H|apply rel_0]. Qed.
Lemma fl_scal (r' r : R) k (z : CC) : rel k r' r -> cabs (@csub ROps (@cscal F r' z) (cscal r z)) <= (U ^ (S k) - 1) * (Rabs r * cabs z + psi).
Proof.
  intros H. rewrite <- cabs_scal. apply cabs_relp.
  - unfold cscal. cbn [fst snd mkC smul fl build_ops set_ops rops ROps]. apply relp_scal. exact H.
  - unfold cscal. cbn [fst snd mkC smul fl build_ops set_ops rops ROps]. apply relp_scal. exact H.
Qed.

(** ** the accumulated error: z' approximates z, both of magnitude B, after roundings counted by a and table look-ups
    counted by b *)
Definition EE (a b : nat) : R := U ^ a * T ^ b.
Lemma EE_ge1 a b : 1 <= EE a b.
Proof. unfold EE. pose proof (pow_ge1 U a U1). pose proof (pow_ge1 T b T1). nra. Qed.
Lemma EE_mono a b a' b' : (a <= a')%nat -> (b <= b')%nat -> EE a b <= EE a' b'.
Proof.
  intros H1 H2. unfold EE. apply Rmult_le_compat.
  - pose proof (pow_ge1 U a U1). lra.
  - pose proof (pow_ge1 T b T1). lra.
  - apply Rle_pow; [apply U1|auto].
  - apply Rle_pow; [apply T1|auto].
Qed.
Lemma EE_mul a b a' b' : EE a b * EE a' b' = EE (a + a') (b + b').
Proof. unfold EE. rewrite !pow_add. ring. Qed.
Lemma EE_U a : EE a 0 = U ^ a.
Proof. unfold EE. cbn. ring. Qed.

(** data: the magnitude includes the floor psi (below it the errors are absolute) *)
Definition approx (a b : nat) (z' z : CC) (B : R) : Prop := cabs z + psi <= B /\ cabs (csub z' z) <= (EE a b - 1) * B.
(** twiddle factors and constants *)
Definition tapx (a b : nat) (w' w : CC) : Prop := cabs w <= 1 /\ cabs (csub w' w) <= EE a b - 1.

Lemma ap_mag a b z' z B : approx a b z' z B -> cabs z' + psi <= EE a b * B.
Proof. intros [H1 H2]. pose proof (cabs_near z' z). pose proof (EE_ge1 a b). nra. Qed.
Lemma ta_mag a b z' z : tapx a b z' z -> cabs z' <= EE a b.
Proof. intros [H1 H2]. pose proof (cabs_near z' z). pose proof (EE_ge1 a b). nra. Qed.
Lemma ap_B a b z' z B : approx a b z' z B -> psi <= B.
Proof. intros [H _]. pose proof (cabs_pos z). lra. Qed.
Lemma ap_B0 a b z' z B : approx a b z' z B -> 0 <= B.
Proof. intros H. apply ap_B in H. pose proof psi0. lra. Qed.
Lemma ap_mono a b a' b' z' z B B' : approx a b z' z B -> (a <= a')%nat -> (b <= b')%nat -> B <= B' -> approx a' b' z' z B'.
Proof.
  intros H Ha Hb HB. pose proof (ap_B0 _ _ _ _ _ H). destruct H as [H1 H2]. split; [lra|].
  pose proof (EE_mono a b a' b' Ha Hb). pose proof (EE_ge1 a b).
  apply Rle_trans with ((EE a b - 1) * B); auto. apply Rmult_le_compat; lra.
Qed.
Lemma ta_mono a b a' b' z' z : tapx a b z' z -> (a <= a')%nat -> (b <= b')%nat -> tapx a' b' z' z.
Proof. intros [H1 H2] Ha Hb. split; [auto|]. pose proof (EE_mono a b a' b' Ha Hb). lra. Qed.
Lemma ap_id z : approx 0 0 z z (cabs z + psi).
Proof.
  split; [lra|]. replace (csub z z) with (0, 0) by (csimp; ring). rewrite cabs_0. unfold EE. cbn. lra.
Qed.
(** an operation with relative error U^c - 1 applied to an approximation *)
Lemma ap_op a b c r' r z B : cabs (csub r' r) <= (U ^ c - 1) * (EE a b * B) -> approx a b r z B -> approx (c + a) b r' z B.
Proof.
  intros H Ha. pose proof (ap_B0 _ _ _ _ _ Ha) as HB. destruct Ha as [H1 H2]. split; [auto|].
  pose proof (cabs_tri r' r z). replace (EE (c + a) b) with (U ^ c * EE a b) by (unfold EE; rewrite pow_add; ring). lra.
Qed.
Lemma ap_add a b x' x B1 y' y B2 : approx a b x' x B1 -> approx a b y' y B2 -> approx (1 + a) b (@cadd F x' y') (cadd x y) (B1 + B2).
Proof.
  intros H1 H2. assert (HA : approx a b (cadd x' y') (cadd x y) (B1 + B2)).
  { destruct H1 as [P1 P2], H2 as [Q1 Q2]. split; [pose proof (cabs_add x y); pose proof psi0; lra|].
    replace (csub (cadd x' y') (cadd x y)) with (cadd (csub x' x) (csub y' y)) by ring. pose proof (cabs_add (csub x' x) (csub y' y)). lra. }
  eapply ap_op; [|exact HA]. pose proof (ap_mag _ _ _ _ _ HA). eapply Rle_trans; [apply fl_add|].
  apply Rmult_le_compat_l; auto. pose proof (pow_ge1 U 1 U1). lra.
Qed.
Lemma ap_sub a b x' x B1 y' y B2 : approx a b x' x B1 -> approx a b y' y B2 -> approx (1 + a) b (@csub F x' y') (csub x y) (B1 + B2).
Proof.
  intros H1 H2. assert (HA : approx a b (csub x' y') (csub x y) (B1 + B2)).
  { destruct H1 as [P1 P2], H2 as [Q1 Q2]. split; [pose proof (cabs_sub x y); pose proof psi0; lra|].
    replace (csub (csub x' y') (csub x y)) with (csub (csub x' x) (csub y' y)) by ring. pose proof (cabs_sub (csub x' x) (csub y' y)). lra. }
  eapply ap_op; [|exact HA]. pose proof (ap_mag _ _ _ _ _ HA). eapply Rle_trans; [apply fl_sub|].
  apply Rmult_le_compat_l; auto. pose proof (pow_ge1 U 1 U1). lra.
Qed.
(** twiddle factor times data *)
Lemma ap_mul a b c d x' x y' y B2 : tapx a b x' x -> approx c d y' y B2 -> approx (3 + (a + c)) (b + d) (@cmul F x' y') (cmul x y) B2.
Proof.
  intros H1 H2. pose proof (ta_mag _ _ _ _ H1) as M1. pose proof (ap_mag _ _ _ _ _ H2) as M2.
  pose proof (ap_B0 _ _ _ _ _ H2) as P2. pose proof psi0 as Ps.
  pose proof (EE_ge1 a b) as G1. pose proof (EE_ge1 c d) as G2. pose proof (cabs_pos x'). pose proof (cabs_pos y').
  pose proof (cabs_pos x). pose proof (cabs_pos y).
  apply (ap_op _ _ 3 _ (cmul x' y')).
  - eapply Rle_trans; [apply fl_mul|]. apply Rmult_le_compat_l; [pose proof (pow_ge1 U 3 U1); lra|].
    rewrite <- EE_mul. assert (cabs x' * cabs y' <= EE a b * (EE c d * B2 - psi)) by (apply Rmult_le_compat; lra). nra.
  - destruct H1 as [A1 A2], H2 as [C1 C2]. split.
    + rewrite cabs_mul. assert (cabs x * cabs y <= 1 * cabs y) by (apply Rmult_le_compat_r; auto). lra.
    + replace (csub (cmul x' y') (cmul x y)) with (cadd (cmul x' (csub y' y)) (cmul (csub x' x) y)) by ring.
      pose proof (cabs_add (cmul x' (csub y' y)) (cmul (csub x' x) y)) as Ht. rewrite !cabs_mul in Ht.
      pose proof (cabs_pos (csub y' y)). pose proof (cabs_pos (csub x' x)).
      assert (cabs x' * cabs (csub y' y) <= EE a b * ((EE c d - 1) * B2)) by (apply Rmult_le_compat; auto).
      assert (cabs (csub x' x) * cabs y <= (EE a b - 1) * B2) by (apply Rmult_le_compat; auto; lra).
      rewrite <- EE_mul. nra.
Qed.
Lemma ap_mulr a b c d x' x y' y B1 : approx a b x' x B1 -> tapx c d y' y -> approx (3 + (a + c)) (b + d) (@cmul F x' y') (cmul x y) B1.
Proof.
  intros H1 H2. pose proof (ap_mag _ _ _ _ _ H1) as M1. pose proof (ta_mag _ _ _ _ H2) as M2.
  pose proof (ap_B0 _ _ _ _ _ H1) as P1. pose proof psi0 as Ps.
  pose proof (EE_ge1 a b) as G1. pose proof (EE_ge1 c d) as G2. pose proof (cabs_pos x'). pose proof (cabs_pos y').
  pose proof (cabs_pos x). pose proof (cabs_pos y).
  apply (ap_op _ _ 3 _ (cmul x' y')).
  - eapply Rle_trans; [apply fl_mul|]. apply Rmult_le_compat_l; [pose proof (pow_ge1 U 3 U1); lra|].
    rewrite <- EE_mul. assert (cabs x' * cabs y' <= (EE a b * B1 - psi) * EE c d) by (apply Rmult_le_compat; lra). nra.
  - destruct H1 as [A1 A2], H2 as [C1 C2]. split.
    + rewrite cabs_mul. assert (cabs x * cabs y <= cabs x * 1) by (apply Rmult_le_compat_l; auto). lra.
    + replace (csub (cmul x' y') (cmul x y)) with (cadd (cmul x' (csub y' y)) (cmul (csub x' x) y)) by ring.
      pose proof (cabs_add (cmul x' (csub y' y)) (cmul (csub x' x) y)) as Ht. rewrite !cabs_mul in Ht.
      pose proof (cabs_pos (csub y' y)). pose proof (cabs_pos (csub x' x)).
      assert (cabs x' * cabs (csub y' y) <= (EE a b * B1) * (EE c d - 1)) by (apply Rmult_le_compat; auto; lra).
      assert (cabs (csub x' x) * cabs y <= ((EE a b - 1) * B1) * 1) by (apply Rmult_le_compat; auto).
      rewrite <- EE_mul. nra.
Qed.
Lemma ta_mul a b c d x' x y' y : tapx a b x' x -> tapx c d y' y -> tapx (3 + (a + c)) (b + d) (@cmul F x' y') (cmul x y).
Proof.
  intros H1 H2. pose proof (ta_mag _ _ _ _ H1) as M1. pose proof (ta_mag _ _ _ _ H2) as M2.
  pose proof (EE_ge1 a b) as G1. pose proof (EE_ge1 c d) as G2. pose proof (cabs_pos x'). pose proof (cabs_pos y').
  pose proof (cabs_pos x). pose proof (cabs_pos y). destruct H1 as [A1 A2], H2 as [C1 C2]. split.
  - rewrite cabs_mul. rewrite <- (Rmult_1_l 1). apply Rmult_le_compat; auto.
  - eapply Rle_trans; [apply (cabs_tri _ (cmul x' y'))|].
    assert (HM : cabs x' * cabs y' <= EE a b * EE c d) by (apply Rmult_le_compat; auto).
    pose proof (fl_mul1 x' y' (EE a b * EE c d) ltac:(nra) HM) as Hf.
    replace (csub (cmul x' y') (cmul x y)) with (cadd (cmul x' (csub y' y)) (cmul (csub x' x) y)) by ring.
    pose proof (cabs_add (cmul x' (csub y' y)) (cmul (csub x' x) y)) as Ht. rewrite !cabs_mul in Ht.
    pose proof (cabs_pos (csub y' y)). pose proof (cabs_pos (csub x' x)).
    assert (cabs x' * cabs (csub y' y) <= EE a b * (EE c d - 1)) by (apply Rmult_le_compat; auto).
    assert (cabs (csub x' x) * cabs y <= (EE a b - 1) * 1) by (apply Rmult_le_compat; auto).
    replace (EE (3 + (a + c)) (b + d)) with (U ^ 3 * (EE a b * EE c d)) by (rewrite EE_mul; unfold EE; rewrite !pow_add; ring). nra.
Qed.
Lemma ap_v8 a b z' z B : approx a b z' z B -> approx (3 + a) b (@v8x F z') (v8x z) B.
Proof.
  intros H. pose proof (ap_mag _ _ _ _ _ H) as M. apply (ap_op _ _ 3 _ (v8x z')).
  - eapply Rle_trans; [apply fl_v8|]. apply Rmult_le_compat_l; auto. pose proof (pow_ge1 U 3 U1). lra.
  - destruct H as [H1 H2]. assert (E : forall t, cabs (v8x t) = cabs t).
    { intros t. unfold cabs. f_equal. destruct t as [x y]. unfold cnorm2. creduce. assert (E : / sqrt 2 * / sqrt 2 = / 2).
      { rewrite <- Rinv_mult. f_equal. apply sqrt_def. lra. } set (h := / sqrt 2) in *. nra. }
    split; [rewrite E; auto|]. replace (csub (v8x z') (v8x z)) with (v8x (csub z' z)); [rewrite E; auto|].
    destruct z', z. csimp; ring.
Qed.
Lemma ap_w8 a b z' z B : approx a b z' z B -> approx (3 + a) b (@w8x F z') (w8x z) B.
Proof.
  intros H. pose proof (ap_mag _ _ _ _ _ H) as M. apply (ap_op _ _ 3 _ (w8x z')).
  - eapply Rle_trans; [apply fl_w8|]. apply Rmult_le_compat_l; auto. pose proof (pow_ge1 U 3 U1). lra.
  - destruct H as [H1 H2]. assert (E : forall t, cabs (w8x t) = cabs t).
    { intros t. unfold cabs. f_equal. destruct t as [x y]. unfold cnorm2. creduce. assert (E : / sqrt 2 * / sqrt 2 = / 2).
      { rewrite <- Rinv_mult. f_equal. apply sqrt_def. lra. } set (h := / sqrt 2) in *. nra. }
    split; [rewrite E; auto|]. replace (csub (w8x z') (w8x z)) with (w8x (csub z' z)); [rewrite E; auto|].
    destruct z', z. csimp; ring.
Qed.
Lemma ap_jx a b z' z B : approx a b z' z B -> approx a b (@jx F z') (jx z) B.
Proof.
  intros [H1 H2]. split; [rewrite cabs_jx; auto|]. change (@jx F z') with (@jx ROps z').
  replace (csub (jx z') (jx z)) with (jx (csub z' z)); [rewrite cabs_jx; auto|]. destruct z', z. csimp; ring.
Qed.
Lemma ap_conj a b z' z B : approx a b z' z B -> approx a b (@cconj F z') (cconj z) B.
Proof.
  intros [H1 H2]. split; [rewrite cabs_conj; auto|]. change (@cconj F z') with (@cconj ROps z').
  rewrite <- conj_sub. rewrite cabs_conj; auto.
Qed.
Lemma ta_conj a b z' z : tapx a b z' z -> tapx a b (@cconj F z') (cconj z).
Proof.
  intros [H1 H2]. split; [rewrite cabs_conj; auto|]. change (@cconj F z') with (@cconj ROps z').
  rewrite <- conj_sub. rewrite cabs_conj; auto.
Qed.
(** the constants of the radix-16 kernels *)
Lemma ta_const (a' b' a b : R) : rel 1 a' a -> rel 1 b' b -> a * a + b * b = 1 -> tapx 1 0 (a', b') (a, b).
Proof.
  intros H1 H2 E. assert (Ec : cabs (a, b) = 1) by (unfold cabs, cnorm2; cbn [fst snd]; rewrite E; apply sqrt_1).
  split; [lra|]. rewrite EE_U. replace (U ^ 1 - 1) with ((U ^ 1 - 1) * cabs (a, b)) by (rewrite Ec; ring). apply cabs_rel; auto.
Qed.
Lemma rel_x : rel 1 (c_H1X A) (cos (PI / 8)).
Proof. apply rel_c, H1X_err. Qed.
Lemma rel_y : rel 1 (c_H1Y A) (- sin (PI / 8)).
Proof. apply rel_c. rewrite Rabs_Ropp. apply H1Y_err. Qed.
Lemma cs8 : cos (PI / 8) * cos (PI / 8) + sin (PI / 8) * sin (PI / 8) = 1.
Proof. pose proof (sin2_cos2 (PI / 8)) as H. unfold Rsqr in H. lra. Qed.
Lemma ap_hmul k' k a b z' z B : tapx 1 0 k' k -> approx a b z' z B -> approx (4 + a) b (@cmul F k' z') (cmul k z) B.
Proof. intros H1 H2. exact (ap_mul _ _ _ _ _ _ _ _ _ H1 H2). Qed.
Lemma ap_h1 a b z' z B : approx a b z' z B -> approx (4 + a) b (@h1x F z') (h1x z) B.
Proof. apply ap_hmul. apply ta_const; [apply rel_x|apply rel_y|]. pose proof cs8. creduce. nra. Qed.
Lemma ap_h3 a b z' z B : approx a b z' z B -> approx (4 + a) b (@h3x F z') (h3x z) B.
Proof. apply ap_hmul. apply ta_const; [apply rel_opp, rel_y|apply rel_opp, rel_x|]. pose proof cs8. creduce. nra. Qed.
Lemma ap_hf a b z' z B : approx a b z' z B -> approx (4 + a) b (@hfx F z') (hfx z) B.
Proof. apply ap_hmul. apply ta_const; [apply rel_x|apply rel_opp, rel_y|]. pose proof cs8. creduce. nra. Qed.
Lemma ap_hd a b z' z B : approx a b z' z B -> approx (4 + a) b (@hdx F z') (hdx z) B.
Proof. apply ap_hmul. apply ta_const; [apply rel_opp, rel_y|apply rel_x|]. pose proof cs8. creduce. nra. Qed.
Lemma ap_scal (k a b : nat) (r' r : R) z' z B B' : rel k r' r -> approx a b z' z B -> Rabs r * B <= B' -> Rabs r * B + (1 - Rabs r) * psi <= B' ->
  approx (S k + a) b (@cscal F r' z') (@cscal ROps r z) B'.
Proof.
  intros Hr H HB1 HB2. pose proof (ap_mag _ _ _ _ _ H) as M. pose proof (Rabs_pos r) as Pr. pose proof psi0 as Ps. pose proof (ap_B0 _ _ _ _ _ H) as PB.
  pose proof (EE_ge1 a b) as PE. apply (ap_op _ _ (S k) _ (@cscal ROps r z')).
  - eapply Rle_trans; [apply fl_scal; exact Hr|]. apply Rmult_le_compat_l; [pose proof (pow_ge1 U (S k) U1); lra|].
    assert (Rabs r * cabs z' <= Rabs r * (EE a b * B - psi)) by (apply Rmult_le_compat_l; lra).
    destruct (Rle_or_lt (Rabs r) 1) as [H1|H1].
    + assert ((1 - Rabs r) * psi <= EE a b * ((1 - Rabs r) * psi)) by (assert (0 <= (1 - Rabs r) * psi) by (apply Rmult_le_pos; lra); nra).
      assert (EE a b * (Rabs r * B + (1 - Rabs r) * psi) <= EE a b * B') by (apply Rmult_le_compat_l; lra). lra.
    + assert (psi <= Rabs r * psi) by nra. assert (EE a b * (Rabs r * B) <= EE a b * B') by (apply Rmult_le_compat_l; lra). lra.
  - destruct H as [H1 H2]. split.
    + rewrite cabs_scal. assert (Rabs r * cabs z <= Rabs r * (B - psi)) by (apply Rmult_le_compat_l; lra). lra.
    + replace (csub (@cscal ROps r z') (@cscal ROps r z)) with (@cscal ROps r (csub z' z)) by (destruct z', z; csimp; ring).
      rewrite cabs_scal. assert (Rabs r * cabs (csub z' z) <= Rabs r * ((EE a b - 1) * B)) by (apply Rmult_le_compat_l; auto). nra.
Qed.

(** ** table entries: an angle with relative error (1+u)^5 *)
Lemma sin_abs x : Rabs (sin x) <= Rabs x.
Proof.
  assert (P : forall y, 0 < y -> Rabs (sin y) <= y).
  { intros y Hy. destruct (Rle_or_lt y 1) as [H|H].
    - pose proof (sin_lt_x y Hy). pose proof PI2_1. rewrite Rabs_right; [lra|]. apply Rle_ge, sin_ge_0; lra.
    - pose proof (SIN_bound y). apply Rle_trans with 1; [apply Rabs_le; lra|lra]. }
  destruct (Rtotal_order x 0) as [H|[->|H]].
  - rewrite <- (Rabs_Ropp x), <- Rabs_Ropp, <- sin_neg. rewrite (Rabs_right (- x)) by lra. apply P. lra.
  - rewrite sin_0. lra.
  - rewrite (Rabs_right x) by lra. apply P. auto.
Qed.
Lemma cis_lip a b : cabs (csub (cis a) (cis b)) <= Rabs (a - b).
Proof.
  apply cabs_le; [apply Rabs_pos|].
  assert (E : cnorm2 (csub (cis a) (cis b)) = 4 * (sin ((a - b) / 2) * sin ((a - b) / 2))).
  { unfold cnorm2, cis. creduce.
    assert (C1 : cos (a - b) = 1 - 2 * sin ((a - b) / 2) * sin ((a - b) / 2)).
    { replace (a - b) with (2 * ((a - b) / 2)) at 1 by field. apply cos_2a_sin. }
    rewrite cos_minus in C1. pose proof (sin2_cos2 a) as H1. pose proof (sin2_cos2 b) as H2. unfold Rsqr in *. nra. }
  rewrite E. pose proof (sin_abs ((a - b) / 2)) as H.
  assert (S : sin ((a - b) / 2) * sin ((a - b) / 2) = Rabs (sin ((a - b) / 2)) * Rabs (sin ((a - b) / 2))) by (rewrite <- Rabs_mult; symmetry; apply Rabs_right; apply Rle_ge; apply Rle_0_sqr).
  rewrite S. pose proof (Rabs_pos (sin ((a - b) / 2))).
  assert (E2 : Rabs ((a - b) / 2) = Rabs (a - b) / 2) by (unfold Rdiv; rewrite Rabs_mult; f_equal; apply Rabs_right; lra).
  rewrite E2 in H. nra.
Qed.
Lemma ta_root (t' t : R) (e : R) : (e = 1 \/ e = -1) -> rel 5 t' t -> Rabs t <= 2 * PI ->
  tapx 0 1 (f_cos A t', e * f_sin A t') (cis (e * t)).
Proof.
  intros He Hr Ht. split; [unfold cabs; rewrite cis_norm, sqrt_1; lra|].
  assert (EE01 : EE 0 1 - 1 = tau) by (unfold EE; cbn; ring). rewrite EE01. unfold tau.
  assert (S : Rabs (e * t' - e * t) <= 2 * PI * (U ^ 5 - 1)).
  { rewrite <- Rmult_minus_distr_l, Rabs_mult. replace (Rabs e) with 1 by (destruct He as [-> | ->]; [rewrite Rabs_R1|rewrite Rabs_left]; lra).
    unfold rel in Hr. pose proof (pow_ge1 U 5 U1). nra. }
  pose proof (cis_lip (e * t') (e * t)) as HL.
  pose proof (cabs_tri (f_cos A t', e * f_sin A t') (cis (e * t')) (cis (e * t))) as HT.
  assert (HB : cabs (csub (f_cos A t', e * f_sin A t') (cis (e * t'))) <= 2 * lam A).
  { pose proof (cos_err A t') as H1. pose proof (sin_err A t') as H2. pose proof lam0 as HL0.
    eapply Rle_trans; [apply (cabs_comp _ (lam A) (lam A))|].
    - unfold cis. creduce. destruct He as [-> | ->]; [rewrite Rmult_1_l; auto|]. replace (-1 * t') with (- t') by ring. rewrite cos_neg. auto.
    - unfold cis. creduce. destruct He as [-> | ->]; [rewrite !Rmult_1_l; auto|]. replace (-1 * t') with (- t') by ring. rewrite sin_neg.
      replace (-1 * f_sin A t' - - sin t') with (- (f_sin A t' - sin t')) by ring. rewrite Rabs_Ropp. auto.
    - apply sq_le; [lra|]. rewrite sqrt_def; [nra|nra]. }
  lra.
Qed.
End Round.
