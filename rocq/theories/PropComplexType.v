(** * Properties of complex_t (inc/otfft_complex.h), the element type of all transforms *)

From Coq Require Import Reals ZArith List Arith Bool Lia Lra Psatz.
From Verif Require Import Scalar RealOps Spec DftFacts ModelComplexType.
Import ListNotations.

(** ** C44: in exact arithmetic complex_t is the field of complex numbers.
    A complex number is a pair of reals; i = (0, 1). *)
Section Field.
Local Open Scope R_scope.
Definition zr (x : R) : CC := (x, 0).
Definition zi : CC := (0, 1).
Definition modulus (z : CC) : R := sqrt (fst z * fst z + snd z * snd z).

Lemma pair_split (z w : CC) : fst z = fst w -> snd z = snd w -> z = w.
Proof. destruct z, w. cbn. intros -> ->. reflexivity. Qed.
Ltac zred := unfold z_div, z_divr, z_expj, z_polar, z_proj, z_abs, z_norm, z_conj, z_jx, z_mjx, z_neg, z_add, z_sub, z_scal, z_mul, zr, zi, ctor_pair, ctor_std, ctor_real, ctor_default, to_std, s0, s1, s2 in *; creduce; cbn [sofZ ssqrt ROps Sc] in *.
Ltac zring := intros; apply pair_split; zred; try ring.

Lemma sq_sum_0 (a b : R) : (a, b) <> (0, 0) -> 0 < a * a + b * b.
Proof.
  intros H. destruct (Req_dec a 0) as [->|Ha]; [destruct (Req_dec b 0) as [->|Hb]; [congruence|]|]; [nra|].
  assert (0 < a * a) by nra. nra.
Qed.

(** a field: commutative ring laws ... *)
Theorem C44_ring : forall a b c : CC,
  z_add a b = z_add b a /\ z_add (z_add a b) c = z_add a (z_add b c) /\ z_add a ctor_default = a /\ z_add a (z_neg a) = ctor_default /\
  z_mul a b = z_mul b a /\ z_mul (z_mul a b) c = z_mul a (z_mul b c) /\ z_mul a (ctor_real 1) = a /\
  z_mul a (z_add b c) = z_add (z_mul a b) (z_mul a c) /\ z_sub a b = z_add a (z_neg b).
Proof. intros a b c. repeat split; revert a b c; zring. Qed.
(** ... containing the reals, ... *)
Theorem C44_reals : forall x y : R, z_add (ctor_real x) (ctor_real y) = ctor_real (x + y) /\ z_mul (ctor_real x) (ctor_real y) = ctor_real (x * y) /\
  z_neg (ctor_real x) = ctor_real (- x) /\ z_sub (ctor_real x) (ctor_real y) = ctor_real (x - y) /\ ctor_default = ctor_real 0 /\ ctor_real x = ctor_pair x 0 /\ z_abs (ctor_real x) = Rabs x.
Proof.
  intros x y. assert (A : @eq R (@z_abs ROps (ctor_real x)) (Rabs x)).
  { change (sqrt (x * x + 0 * 0) = Rabs x). replace (x * x + 0 * 0) with (Rsqr x) by (unfold Rsqr; ring). apply sqrt_Rsqr_abs. }
  repeat split; try exact A; apply pair_split; zred; try ring.
Qed.
(** ... with i * i = -1, every number x + i y, and division *)
Theorem C44_field : forall a b : CC, b <> (0, 0) ->
  z_mul zi zi = ctor_real (-1) /\ ctor_pair (fst a) (snd a) = z_add (ctor_real (fst a)) (z_mul zi (ctor_real (snd a))) /\
  z_mul (z_div a b) b = a /\ z_div (z_mul a b) b = a /\
  forall x : R, x <> 0 -> z_divr a x = z_div a (ctor_real x) /\ z_scal x a = z_mul (ctor_real x) a.
Proof.
  intros a [c d] Hb. apply sq_sum_0 in Hb. split; [zring|]. split; [revert a; zring|]. split; [|split].
  - destruct a as [a1 a2]. apply pair_split; zred; field; lra.
  - destruct a as [a1 a2]. apply pair_split; zred; field; lra.
  - intros x Hx. split; [|revert a; zring]. destruct a as [a1 a2]. apply pair_split; zred; field; nra.
Qed.
(** conjugate, absolute value, the rotations jx, mjx, neg *)
Theorem C44_conj_abs : forall a b : CC,
  z_conj (z_add a b) = z_add (z_conj a) (z_conj b) /\ z_conj (z_mul a b) = z_mul (z_conj a) (z_conj b) /\ z_conj (z_conj a) = a /\ z_conj zi = z_neg zi /\
  z_mul a (z_conj a) = ctor_real (z_norm a) /\ z_norm (z_mul a b) = z_norm a * z_norm b /\ z_abs a * z_abs a = z_norm a /\ z_abs a = modulus a /\
  z_abs (z_mul a b) = z_abs a * z_abs b /\ z_jx a = z_mul zi a /\ z_mjx a = z_mul (z_neg zi) a /\ z_neg a = z_mul (ctor_real (-1)) a /\
  ctor_std (to_std a) = a.
Proof.
  intros a b. assert (P : forall z : CC, 0 <= z_norm z) by (intros z; zred; nra).
  assert (M : z_norm (z_mul a b) = z_norm a * z_norm b) by (zred; ring).
  repeat match goal with |- _ /\ _ => split end.
  - zring.
  - zring.
  - zring.
  - zring.
  - zring.
  - exact M.
  - unfold z_abs. apply sqrt_def. apply P.
  - reflexivity.
  - unfold z_abs. rewrite M. apply sqrt_mult; apply P.
  - zring.
  - zring.
  - zring.
  - destruct a; reflexivity.
Qed.

(** polar form.  atan2 is a library function: any function returning the angle in (-pi, pi] will do *)
Definition is_atan2 (f : R -> R -> R) : Prop := forall x y, (x, y) <> (0, 0) ->
  - PI < f y x <= PI /\ x = sqrt (x * x + y * y) * cos (f y x) /\ y = sqrt (x * x + y * y) * sin (f y x).
Theorem C44_polar : forall atan2 (z : CC) (r t t' : R), is_atan2 atan2 ->
  (z <> (0, 0) -> z_polar (z_abs z) (z_arg atan2 z) = z) /\
  (0 < r -> - PI < t <= PI -> z_abs (z_polar r t) = r /\ z_arg atan2 (z_polar r t) = t) /\
  z_expj t = z_polar 1 t /\ z_expj (t + t') = z_mul (z_expj t) (z_expj t') /\ z_abs (z_expj t) = 1 /\ z_conj (z_expj t) = z_expj (- t).
Proof.
  intros atan2 z r t t' HA.
  assert (SC : forall u, cos u * cos u + sin u * sin u = 1) by (intros u; pose proof (sin2_cos2 u) as H; unfold Rsqr in H; lra).
  assert (AB : forall r u : R, 0 <= r -> @eq R (@z_abs ROps (@z_polar ROps r u)) r).
  { intros r' u Hr. zred. replace (r' * cos u * (r' * cos u) + r' * sin u * (r' * sin u)) with (r' * r' * (cos u * cos u + sin u * sin u)) by ring.
    rewrite SC, Rmult_1_r. apply sqrt_square. auto. }
  assert (E1 : forall u : R, @z_expj ROps u = @z_polar ROps 1 u) by (intros u; apply pair_split; zred; ring).
  split; [|split; [|split; [|split; [|split]]]].
  - intros Hz. destruct z as [x y]. destruct (HA x y Hz) as (_ & Hx & Hy). apply pair_split; [symmetry; exact Hx|symmetry; exact Hy].
  - intros Hr Ht. split; [apply AB; lra|]. change (atan2 (r * sin t) (r * cos t) = t).
    assert (Er : sqrt (r * cos t * (r * cos t) + r * sin t * (r * sin t)) = r) by (apply (AB r t); lra).
    assert (Hn : (r * cos t, r * sin t) <> (0, 0)).
    { intros E. injection E as E1' E2'. rewrite E1', E2' in Er. replace (0 * 0 + 0 * 0) with 0 in Er by ring. rewrite sqrt_0 in Er. lra. }
    destruct (HA _ _ Hn) as (HR & Hc & Hs). rewrite Er in Hc, Hs. set (s := atan2 (r * sin t) (r * cos t)) in *.
    assert (C1 : cos t = cos s) by (apply (Rmult_eq_reg_l r); lra). assert (S1 : sin t = sin s) by (apply (Rmult_eq_reg_l r); lra).
    assert (D1 : cos (s - t) = 1) by (rewrite cos_minus, C1, S1; apply SC). assert (D2 : sin (s - t) = 0) by (rewrite sin_minus, C1, S1; ring).
    destruct (sin_eq_0_0 _ D2) as [k Hk]. assert (HkP : - 2 * PI < s - t < 2 * PI) by lra. rewrite Hk in HkP. pose proof PI_RGT_0 as HP.
    assert (K1 : (-2 < k)%Z) by (apply lt_IZR; nra). assert (K2 : (k < 2)%Z) by (apply lt_IZR; nra).
    assert (K : (k = -1 \/ k = 0 \/ k = 1)%Z) by lia. destruct K as [-> | [-> | ->]].
    + exfalso. rewrite Hk in D1. replace (-1 * PI) with (- PI) in D1 by ring. rewrite cos_neg, cos_PI in D1. lra.
    + lra.
    + exfalso. rewrite Hk in D1. rewrite Rmult_1_l, cos_PI in D1. lra.
  - apply E1.
  - apply pair_split; zred; rewrite ?cos_plus, ?sin_plus; ring.
  - rewrite E1. apply AB. lra.
  - apply pair_split; zred; rewrite ?cos_neg, ?sin_neg; ring.
Qed.
(** such a function exists *)
Definition atan2_def (y x : R) : R :=
  if Rlt_dec 0 x then atan (y / x)
  else if Rlt_dec x 0 then (if Rle_dec 0 y then atan (y / x) + PI else atan (y / x) - PI)
  else if Rlt_dec 0 y then PI / 2 else - (PI / 2).
Lemma atan2_exists : is_atan2 atan2_def.
Proof.
  intros x y H. pose proof (sq_sum_0 _ _ H) as HS. pose proof PI_RGT_0 as HP. pose proof (atan_bound (y / x)) as AB.
  set (n := sqrt (x * x + y * y)). assert (Hn : 0 < n) by (apply sqrt_lt_R0; auto). assert (Hn2 : n * n = x * x + y * y) by (apply sqrt_def; lra).
  assert (Q : forall a, a * a = x * x -> 0 < a -> x <> 0 -> n / a = sqrt (1 + (y / x)²)).
  { intros a Ha Hp Hx. apply sqrt_lem_1 in Hn2; [|lra|lra]. unfold Rsqr. replace (1 + y / x * (y / x)) with ((x * x + y * y) * / (x * x)) by (field; auto).
    rewrite sqrt_mult; [|lra|apply Rlt_le, Rinv_0_lt_compat; nra]. rewrite sqrt_inv. fold n. unfold Rdiv. f_equal. f_equal. rewrite <- Ha. rewrite sqrt_square; lra. }
  unfold atan2_def. destruct (Rlt_dec 0 x) as [Hx|Hx]; [|destruct (Rlt_dec x 0) as [Hx'|Hx']].
  - split; [lra|]. rewrite cos_atan, sin_atan. rewrite <- (Q x) by lra. split; field; lra.
  - assert (E : sqrt (1 + (y / x)²) = n / - x) by (symmetry; apply Q; lra).
    destruct (Rle_dec 0 y) as [Hy|Hy].
    + split.
      * assert (atan (y / x) <= 0).
        { destruct (Req_dec y 0) as [->|Hy0]; [unfold Rdiv; rewrite Rmult_0_l, atan_0; lra|]. rewrite <- atan_0. apply Rlt_le, atan_increasing.
          unfold Rdiv. assert (/ x < 0) by (apply Rinv_lt_0_compat; lra). nra. }
        lra.
      * rewrite neg_cos, neg_sin, cos_atan, sin_atan, E. split; field; lra.
    + split.
      * assert (0 < atan (y / x)).
        { rewrite <- atan_0. apply atan_increasing. unfold Rdiv. assert (/ x < 0) by (apply Rinv_lt_0_compat; lra). nra. }
        lra.
      * rewrite cos_minus, sin_minus, cos_PI, sin_PI, cos_atan, sin_atan, E. split; field; lra.
  - assert (x = 0) by lra. subst x. assert (Hy : y <> 0) by (intros ->; congruence).
    assert (En : n = Rabs y) by (unfold n; replace (0 * 0 + y * y) with (Rsqr y) by (unfold Rsqr; ring); apply sqrt_Rsqr_abs).
    destruct (Rlt_dec 0 y) as [Hy'|Hy'].
    + rewrite cos_PI2, sin_PI2, En, Rabs_right by lra. split; [lra|]. split; ring.
    + rewrite cos_neg, sin_neg, cos_PI2, sin_PI2, En, Rabs_left by lra. split; [lra|]. split; ring.
Qed.
(** proj maps the plane into the closed unit disc, the unit circle onto itself; it is not std::proj, which is the identity on numbers *)
Theorem C44_proj : forall z : CC, z_abs (z_proj z) <= 1 /\ (z_abs (z_proj z) = 1 <-> z_abs z = 1) /\ (z_proj z = z <-> z_abs z = 1 \/ z = (0, 0)).
Proof.
  intros z. pose (n := (@z_norm ROps z) : R). assert (Hn : 0 <= n) by (unfold n; zred; nra).
  assert (HA : z_abs z = sqrt n) by reflexivity.
  assert (E : z_norm (z_proj z) = 4 * n / ((n + 1) * (n + 1))).
  { destruct z as [x y]. change (2 * x / (n + 1) * (2 * x / (n + 1)) + 2 * y / (n + 1) * (2 * y / (n + 1)) = 4 * (x * x + y * y) / ((n + 1) * (n + 1))). field. lra. }
  assert (G : forall q : R, 0 <= q -> (sqrt q = 1 <-> q = 1)).
  { intros q Hq. split; [|intros ->; apply sqrt_1]. intros H. rewrite <- (sqrt_def q Hq), H. ring. }
  pose proof (G n Hn) as S1.
  assert (D : 0 < (n + 1) * (n + 1)) by nra.
  assert (Q0 : 0 <= 4 * n / ((n + 1) * (n + 1))) by (apply Rmult_le_pos; [lra|apply Rlt_le, Rinv_0_lt_compat; auto]).
  split; [|split].
  - unfold z_abs. rewrite E. apply (Rle_trans _ (sqrt 1)); [|rewrite sqrt_1; lra]. apply sqrt_le_1_alt. apply (Rmult_le_reg_r ((n + 1) * (n + 1))); auto. unfold Rdiv. rewrite Rmult_assoc, Rinv_l by lra.
    pose proof (Rle_0_sqr (n - 1)) as H. unfold Rsqr in H. lra.
  - rewrite HA, S1. unfold z_abs. rewrite E, G by auto. split.
    + intros H. assert (4 * n = (n + 1) * (n + 1)). { apply (Rmult_eq_reg_r (/ ((n + 1) * (n + 1)))); [|apply Rinv_neq_0_compat; lra]. rewrite Rinv_r by lra. exact H. }
      assert ((n - 1) * (n - 1) = 0) by lra. apply Rmult_integral in H1. lra.
    + intros ->. field.
  - rewrite HA, S1. destruct z as [x y]. assert (En : n = x * x + y * y) by reflexivity.
    assert (EP : z_proj ((x, y) : CC) = (2 * x / (n + 1), 2 * y / (n + 1))) by reflexivity. rewrite EP. split.
    + intros H. injection H as H1 H2. destruct (Req_dec n 1) as [|Hn1]; [left; auto|]. right.
      assert (K : forall v, 2 * v / (n + 1) = v -> v = 0).
      { intros v Hv. assert (2 * v = v * (n + 1)) by (rewrite <- Hv at 2; field; lra). assert (v * (n - 1) = 0) by lra. apply Rmult_integral in H0. lra. }
      rewrite (K x H1), (K y H2). reflexivity.
    + intros [Hq|[= -> ->]]; apply pair_split; cbn [fst snd]; match goal with |- ?a = ?b => change (@eq R a b) end; [rewrite Hq|rewrite Hq| |]; field; lra.
Qed.
End Field.
Print Assumptions C44_ring.
Print Assumptions C44_reals.
Print Assumptions C44_field.
Print Assumptions C44_conj_abs.
Print Assumptions C44_polar.
Print Assumptions C44_proj.

(** ** C45: compound assignment, any arithmetic, whatever the arguments refer to.
    Two complex_t objects are the same or do not overlap. *)
Definition apart (p q : nat) : Prop := p = q \/ p + 2 <= q \/ q + 2 <= p.
Section Compound.
Context {Op : Ops}.
Ltac cases := repeat match goal with |- context [?a =? ?b] => destruct (Nat.eqb_spec a b); try lia end.
(** a += b, a -= b, a *= b leave the value of a + b, a - b, a * b in a and change nothing else,
    also when a and b are the same object *)
Theorem C45_compound : forall (m : dmem) a b, apart a b ->
  obj (op_add_eq m a b) a = z_add (obj m a) (obj m b) /\
  obj (op_sub_eq m a b) a = z_sub (obj m a) (obj m b) /\
  obj (op_mul_eq m a b) a = z_mul (obj m a) (obj m b) /\
  forall i, i <> a -> i <> a + 1 -> op_add_eq m a b i = m i /\ op_sub_eq m a b i = m i /\ op_mul_eq m a b i = m i.
Proof.
  intros m a b H. unfold apart in H. assert (E1 : a + 1 =? a = false) by (apply Nat.eqb_neq; lia). assert (E2 : a =? a + 1 = false) by (apply Nat.eqb_neq; lia).
  assert (E3 : b + 1 =? a = false) by (apply Nat.eqb_neq; lia).
  unfold op_add_eq, op_sub_eq, op_mul_eq, obj, dset, z_add, z_sub, z_mul, ctor_pair. cbv zeta.
  rewrite ?E1, ?E2, ?E3, ?Nat.eqb_refl. cbn [Re Im mkC fst snd]. repeat split; destruct (Nat.eqb_spec i (a + 1)); try contradiction; destruct (Nat.eqb_spec i a); try contradiction; reflexivity.
Qed.
(** a *= x, a /= x with x any double other than a's own real part (its own imaginary part is allowed) *)
Theorem C45_compound_real : forall (m : dmem) a x, x <> a ->
  obj (op_scal_eq m a x) a = mkC (smul (m a) (m x)) (smul (m (a + 1)) (m x)) /\
  obj (op_div_eq m a x) a = z_divr (obj m a) (m x) /\
  forall i, i <> a -> i <> a + 1 -> op_scal_eq m a x i = m i /\ op_div_eq m a x i = m i.
Proof.
  intros m a x H. assert (E1 : a + 1 =? a = false) by (apply Nat.eqb_neq; lia). assert (E2 : a =? a + 1 = false) by (apply Nat.eqb_neq; lia).
  assert (E3 : x =? a = false) by (apply Nat.eqb_neq; lia).
  unfold op_scal_eq, op_div_eq, obj, dset, z_divr, ctor_pair. cbv zeta.
  rewrite ?E1, ?E2, ?E3, ?Nat.eqb_refl. cbn [Re Im mkC fst snd]. repeat split; destruct (Nat.eqb_spec i (a + 1)); try contradiction; destruct (Nat.eqb_spec i a); try contradiction; reflexivity.
Qed.
End Compound.
Print Assumptions C45_compound.
(** in exact arithmetic a *= x is x * a *)
Theorem C45_scal_exact : forall (m : dmem) a x, x <> a -> obj (@op_scal_eq ROps m a x) a = z_scal (m x) (obj m a).
Proof. intros m a x H. rewrite (proj1 (C45_compound_real m a x H)). unfold z_scal, ctor_pair, obj. cbn [Re Im mkC fst snd]. f_equal; apply Rmult_comm. Qed.
(** the exception is real: z *= z.Re and z /= z.Re multiply/divide the imaginary part by the updated real part *)
Theorem C45_own_real_part : forall (m : @dmem ROps) a, (m a <> 0)%R ->
  obj (op_scal_eq m a a) a = (m a * m a, m (a + 1)%nat * (m a * m a))%R /\
  obj (op_div_eq m a a) a = (1, m (a + 1)%nat)%R.
Proof.
  intros m a H. assert (E1 : a + 1 =? a = false) by (apply Nat.eqb_neq; lia). assert (E2 : a =? a + 1 = false) by (apply Nat.eqb_neq; lia).
  unfold op_scal_eq, op_div_eq, obj, dset. cbv zeta. rewrite ?E1, ?E2, ?Nat.eqb_refl. split; [reflexivity|].
  cbn [sdiv ROps]. unfold mkC. apply pair_split; cbn [fst snd]; match goal with |- ?a = ?b => change (@eq R a b) end; field; auto.
Qed.
(** (2 + 3i) / 2 = 1 + 1.5i, but z /= z.Re gives 1 + 3i *)
Example own_real_part_differs : exists m : @dmem ROps, obj m 0 = (2, 3)%R /\ obj (op_div_eq m 0 0) 0 <> z_divr (obj m 0) (m 0).
Proof.
  set (m := (fun i : nat => if i =? 0 then 2 else 3)%R : @dmem ROps). exists m. split; [reflexivity|].
  pose proof (proj2 (C45_own_real_part m 0 ltac:(unfold m; cbn; lra))) as E. intros E'.
  assert (H : ((1, 3)%R : CC) = (2 / 2, 3 / 2)%R) by exact (eq_trans (eq_sym E) E'). injection H as _ H. lra.
Qed.
Print Assumptions C45_compound_real.
Print Assumptions C45_scal_exact.
Print Assumptions C45_own_real_part.
