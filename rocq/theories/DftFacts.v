(** * Mathematics of the DFT over the reals *)

From Coq Require Import Reals Arith Lia Lra Ring List.
From Verif Require Import Scalar RealOps Spec.
Local Open Scope R_scope.

(** ** finite sums *)

Lemma csum_ext n f g : (forall i, (i < n)%nat -> f i = g i) -> csum n f = csum n g.
Proof. induction n as [|n IH]; cbn; intros H; auto. rewrite IH, H by auto. reflexivity. Qed.

Lemma csum_0 n : csum n (fun _ => (0,0)) = (0,0).
Proof. induction n as [|n IH]; cbn; auto. rewrite IH. csimp; ring. Qed.

Lemma csum_add n f g : csum n (fun i => cadd (f i) (g i)) = cadd (csum n f) (csum n g).
Proof. induction n as [|n IH]; cbn [csum]; [csimp; ring|]. rewrite IH. ring. Qed.

Lemma csum_mul_l n a f : csum n (fun i => cmul a (f i)) = cmul a (csum n f).
Proof. induction n as [|n IH]; cbn [csum]; [csimp; ring|]. rewrite IH. ring. Qed.

Lemma csum_mul_r n a f : csum n (fun i => cmul (f i) a) = cmul (csum n f) a.
Proof. induction n as [|n IH]; cbn [csum]; [csimp; ring|]. rewrite IH. ring. Qed.

Lemma csum_swap n m f : csum n (fun i => csum m (fun j => f i j)) = csum m (fun j => csum n (fun i => f i j)).
Proof.
  induction n as [|n IH]; cbn [csum]; [symmetry; apply csum_0|].
  rewrite IH, <- csum_add. reflexivity.
Qed.

Lemma csum_app n m f : csum (n + m) f = cadd (csum n f) (csum m (fun i => f (n + i)%nat)).
Proof.
  induction m as [|m IH].
  - rewrite Nat.add_0_r. cbn. csimp; ring.
  - rewrite Nat.add_succ_r. cbn [csum]. rewrite IH. ring.
Qed.

(** sum over l = p + m*i *)
Lemma csum_split_hi r m f :
  csum (m * r) f = csum m (fun p => csum r (fun i => f (p + m * i)%nat)).
Proof.
  rewrite csum_swap. induction r as [|r IH].
  - rewrite Nat.mul_0_r. reflexivity.
  - cbn [csum]. rewrite <- IH. replace (m * S r)%nat with (m * r + m)%nat by lia.
    rewrite csum_app. f_equal. apply csum_ext. intros i _. f_equal. lia.
Qed.

(** sum over l = j + r*p *)
Lemma csum_split_lo r m f :
  csum (m * r) f = csum m (fun p => csum r (fun j => f (j + r * p)%nat)).
Proof. rewrite Nat.mul_comm, csum_split_hi. apply csum_swap. Qed.

Lemma csum_single n k f : (k < n)%nat -> (forall i, (i < n)%nat -> i <> k -> f i = (0,0)) -> csum n f = f k.
Proof.
  induction n as [|n IH]; intros Hk H; [lia|]. cbn [csum].
  destruct (Nat.eq_dec k n) as [->|Hne].
  - rewrite (csum_ext n f (fun _ => (0,0))) by (intros; apply H; lia). rewrite csum_0. csimp; ring.
  - rewrite IH by (try lia; auto). rewrite (H n) by lia. csimp; ring.
Qed.

Lemma csum_const n a : csum n (fun _ => a) = cmul (rc (INR n)) a.
Proof. induction n as [|n IH]; cbn [csum]; [cbn; csimp; ring|]. rewrite IH, S_INR. csimp; ring. Qed.

(** ** roots of unity *)

Lemma cis_add a b : cis (a + b) = cmul (cis a) (cis b).
Proof. unfold cis. csimp; [apply cos_plus|rewrite sin_plus; ring]. Qed.

Lemma cis_0 : cis 0 = @c1 ROps.
Proof. unfold cis. csimp; [apply cos_0|apply sin_0]. Qed.

Lemma cis_neg a : cis (- a) = cconj (cis a).
Proof. unfold cis. csimp; [apply cos_neg|apply sin_neg]. Qed.

Lemma cis_2PI_k k : cis (2 * PI * INR k) = @c1 ROps.
Proof.
  unfold cis. pose proof (cos_period 0 k) as Hc. pose proof (sin_period 0 k) as Hs.
  rewrite Rplus_0_l in Hc, Hs. replace (2 * PI * INR k) with (2 * INR k * PI) by ring.
  csimp; [rewrite Hc; apply cos_0|rewrite Hs; apply sin_0].
Qed.

Lemma W_add inv N a b : W inv N (a + b) = cmul (W inv N a) (W inv N b).
Proof. unfold W. rewrite <- cis_add. f_equal. rewrite plus_INR. unfold Rdiv. ring. Qed.

Lemma W_0 inv N : W inv N 0 = @c1 ROps.
Proof.
  unfold W. rewrite <- cis_0. f_equal. cbn [INR]. unfold Rdiv. ring.
Qed.

Lemma W_scale inv r n k : (0 < r)%nat -> (0 < n)%nat -> W inv (r * n) (r * k) = W inv n k.
Proof.
  intros Hr Hn. unfold W. do 2 f_equal. rewrite !mult_INR. field.
  split; apply not_0_INR; lia.
Qed.

Lemma W_conj inv N k : cconj (W inv N k) = W (negb inv) N k.
Proof.
  unfold W. rewrite <- cis_neg. f_equal. destruct inv; cbn [negb]; ring.
Qed.

Lemma W_mulN inv N k : (0 < N)%nat -> W inv N (N * k) = @c1 ROps.
Proof.
  intros HN. unfold W. rewrite mult_INR.
  replace (2 * PI * (INR N * INR k) / INR N) with (2 * PI * INR k) by (field; apply not_0_INR; lia).
  destruct inv.
  - rewrite Rmult_1_l. apply cis_2PI_k.
  - replace (-1 * (2 * PI * INR k)) with (- (2 * PI * INR k)) by ring.
    rewrite cis_neg, cis_2PI_k. csimp; ring.
Qed.

Lemma W_N inv N : (0 < N)%nat -> W inv N N = @c1 ROps.
Proof. intros HN. rewrite <- (W_mulN inv N 1 HN). f_equal. lia. Qed.

Lemma W_plus_mulN inv N k j : (0 < N)%nat -> W inv N (k + N * j) = W inv N k.
Proof. intros HN. rewrite W_add, W_mulN by auto. ring. Qed.

Lemma W_mod inv N k : (0 < N)%nat -> W inv N (k mod N) = W inv N k.
Proof.
  intros HN. rewrite (Nat.div_mod k N) at 2 by lia. rewrite Nat.add_comm. symmetry. apply W_plus_mulN; auto.
Qed.

(** the table entry W[N-k] used by the inverse kernels *)
Lemma W_rev inv N k : (0 < N)%nat -> (k <= N)%nat -> W inv N (N - k) = W (negb inv) N k.
Proof.
  intros HN Hk.
  assert (H : cmul (W inv N (N - k)) (W inv N k) = @c1 ROps).
  { rewrite <- W_add. replace (N - k + k)%nat with N by lia. apply W_N; auto. }
  assert (H2 : cmul (W inv N k) (W (negb inv) N k) = @c1 ROps).
  { rewrite <- W_conj. unfold W, cis. csimp; [|ring].
    match goal with |- cos ?t * cos ?t - sin ?t * - sin ?t = 1 => pose proof (sin2_cos2 t) as Hs; unfold Rsqr in Hs; lra end. }
  transitivity (cmul (W inv N (N - k)) (cmul (W inv N k) (W (negb inv) N k))).
  - rewrite H2. ring.
  - transitivity (cmul (cmul (W inv N (N - k)) (W inv N k)) (W (negb inv) N k)); [ring|]. rewrite H. ring.
Qed.

Lemma W_mul_conj inv N k : cmul (W inv N k) (W (negb inv) N k) = @c1 ROps.
Proof.
  rewrite <- W_conj. unfold W, cis. csimp; [|ring].
  match goal with |- cos ?t * cos ?t - sin ?t * - sin ?t = 1 => pose proof (sin2_cos2 t) as Hs; unfold Rsqr in Hs; lra end.
Qed.

Fixpoint cpow (w : CC) (k : nat) : CC := match k with O => @c1 ROps | S k' => cmul w (cpow w k') end.

Lemma W_pow inv N k : W inv N k = cpow (W inv N 1) k.
Proof.
  induction k as [|k IH]; [apply W_0|]. cbn [cpow]. rewrite <- IH, <- W_add. reflexivity.
Qed.

Lemma W_2_1 inv : W inv 2 1 = cneg (@c1 ROps).
Proof.
  unfold W, cis. cbn [INR]. replace (2 * PI * 1 / (1 + 1)) with PI by field.
  destruct inv.
  - rewrite Rmult_1_l. csimp; [apply cos_PI|rewrite sin_PI; ring].
  - replace (-1 * PI) with (- PI) by ring. csimp; [rewrite cos_neg; apply cos_PI|rewrite sin_neg, sin_PI; ring].
Qed.

(** the half-turn: W_{2n}^n = -1 *)
Lemma W_half inv n : (0 < n)%nat -> W inv (2 * n) n = cneg (@c1 ROps).
Proof.
  intros Hn. rewrite <- (W_2_1 inv).
  replace (W inv (2 * n) n) with (W inv (n * 2) (n * 1)) by (f_equal; lia). apply W_scale; lia.
Qed.

(** ** orthogonality and inversion *)

Lemma cos_lt_1 t : 0 < t < 2 * PI -> cos t < 1.
Proof.
  intros [H1 H2]. rewrite <- cos_0. destruct (Rle_lt_dec t PI) as [Hle|Hgt].
  - apply cos_decreasing_1; lra.
  - replace (cos 0) with (cos (2 * PI)) by (rewrite cos_2PI, cos_0; reflexivity).
    apply cos_increasing_1; lra.
Qed.

Lemma W_re_lt_1 inv N k : (0 < k < N)%nat -> fst (W inv N k) < 1.
Proof.
  intros [H1 H2]. unfold W, cis. cbn [fst].
  assert (HN : 0 < INR N) by (apply lt_0_INR; lia).
  assert (Hk : 0 < INR k) by (apply lt_0_INR; lia).
  assert (HkN : INR k < INR N) by (apply lt_INR; lia).
  assert (Hpi := PI_RGT_0).
  assert (Ht : 0 < 2 * PI * INR k / INR N < 2 * PI).
  { split.
    - apply Rmult_lt_0_compat; [nra|apply Rinv_0_lt_compat; auto].
    - apply (Rmult_lt_reg_r (INR N)); auto. unfold Rdiv. rewrite Rmult_assoc, Rinv_l by lra. nra. }
  destruct inv.
  - rewrite Rmult_1_l. apply cos_lt_1; auto.
  - replace (-1 * (2 * PI * INR k / INR N)) with (- (2 * PI * INR k / INR N)) by ring.
    rewrite cos_neg. apply cos_lt_1; auto.
Qed.

Lemma C_integral a b : cmul a b = (0,0) -> fst a <> 0 -> b = (0,0).
Proof.
  intros H Ha. destruct a as [a1 a2], b as [b1 b2]. cbn in Ha. 
  assert (H1 : a1 * b1 - a2 * b2 = 0) by (apply (f_equal fst) in H; exact H).
  assert (H2 : a1 * b2 + a2 * b1 = 0) by (apply (f_equal snd) in H; exact H).
  assert (Hn : a1 * a1 + a2 * a2 <> 0) by nra.
  assert (E1 : (a1 * a1 + a2 * a2) * b1 = 0).
  { replace ((a1 * a1 + a2 * a2) * b1) with (a1 * (a1 * b1 - a2 * b2) + a2 * (a1 * b2 + a2 * b1)) by ring. rewrite H1, H2; ring. }
  assert (E2 : (a1 * a1 + a2 * a2) * b2 = 0).
  { replace ((a1 * a1 + a2 * a2) * b2) with (a1 * (a1 * b2 + a2 * b1) - a2 * (a1 * b1 - a2 * b2)) by ring. rewrite H1, H2; ring. }
  apply Rmult_integral in E1, E2. apply C_eq; cbn; tauto.
Qed.

Lemma W_sum_zero inv N k : (0 < k < N)%nat -> csum N (fun j => W inv N (j * k)) = (0,0).
Proof.
  intros Hk. set (SS := csum N (fun j => W inv N (j * k))).
  apply (C_integral (csub (W inv N k) (@c1 ROps))).
  2:{ pose proof (W_re_lt_1 inv N k Hk). creduce. lra. }
  assert (E : cmul (W inv N k) SS = SS).
  { unfold SS. rewrite <- csum_mul_l.
    rewrite (csum_ext N _ (fun j => W inv N (S j * k))).
    2:{ intros j _. rewrite <- W_add. f_equal. }
    assert (Htel : forall f n, cadd (f 0%nat) (csum n (fun j => f (S j))) = cadd (csum n f) (f n)).
    { intros f n. induction n as [|n IH]; cbn [csum]; [ring|]. rewrite <- IH. ring. }
    specialize (Htel (fun j => W inv N (j * k)) N). cbn beta in Htel.
    rewrite Nat.mul_0_l, W_0, W_mulN in Htel by lia.
    match type of Htel with cadd _ ?a = cadd ?b _ => replace a with (csub (cadd (@c1 ROps) a) (@c1 ROps)) by ring; rewrite Htel; ring end. }
  transitivity (csub (cmul (W inv N k) SS) SS); [ring|]. rewrite E. csimp; ring.
Qed.

Lemma W_inv_unique inv N k z : cmul (W inv N k) z = @c1 ROps -> z = W (negb inv) N k.
Proof.
  intros H. transitivity (cmul (cmul (W inv N k) (W (negb inv) N k)) z).
  - rewrite W_mul_conj. ring.
  - transitivity (cmul (cmul (W inv N k) z) (W (negb inv) N k)); [ring|]. rewrite H. ring.
Qed.

Lemma W_negb_mul inv N j b : (0 < N)%nat -> (b <= N)%nat -> W (negb inv) N (j * b) = W inv N (j * (N - b)).
Proof.
  intros HN Hb. symmetry. apply W_inv_unique. rewrite <- W_add.
  replace (j * b + j * (N - b))%nat with (N * j)%nat by nia. apply W_mulN; auto.
Qed.

Lemma W_cancel inv N a b : (0 < N)%nat -> (a < N)%nat -> (b < N)%nat ->
  csum N (fun j => cmul (W inv N (j * a)) (W (negb inv) N (j * b))) =
  if Nat.eqb a b then rc (INR N) else (0,0).
Proof.
  intros HN Ha Hb. destruct (Nat.eqb_spec a b) as [->|Hne].
  - rewrite (csum_ext N _ (fun _ => @c1 ROps)) by (intros; apply W_mul_conj).
    rewrite csum_const. ring.
  - rewrite (csum_ext N _ (fun j => W inv N (j * ((a + (N - b)) mod N)))).
    + apply W_sum_zero.
      assert (H : ((a + (N - b)) mod N < N)%nat) by (apply Nat.mod_upper_bound; lia).
      split; [|auto]. 
      destruct (Nat.lt_ge_cases b a) as [Hlt|Hge].
      * replace (a + (N - b))%nat with ((a - b) + 1 * N)%nat by lia. rewrite Nat.mod_add by lia.
        rewrite Nat.mod_small by lia. lia.
      * rewrite Nat.mod_small by lia. lia.
    + intros j _. rewrite W_negb_mul by lia. rewrite <- W_add, <- Nat.mul_add_distr_l.
      rewrite <- (W_mod inv N (j * (_ mod _))) by auto. rewrite Nat.mul_mod_idemp_r by lia.
      rewrite W_mod by auto. reflexivity.
Qed.

(** DFT inversion: the conjugate transform of the transform is N times the input *)
Lemma DFT_inverse inv N x k : (0 < N)%nat -> (k < N)%nat ->
  DFT (negb inv) N (DFT inv N x) k = cmul (rc (INR N)) (x k).
Proof.
  intros HN Hk. unfold DFT.
  rewrite (csum_ext N _ (fun j => csum N (fun i => cmul (x i) (cmul (W inv N (j * i)) (W (negb inv) N (j * k)))))).
  2:{ intros j _. rewrite <- csum_mul_r. apply csum_ext. intros i _. rewrite (Nat.mul_comm i j). ring. }
  rewrite csum_swap.
  rewrite (csum_ext N _ (fun i => cmul (x i) (if Nat.eqb i k then rc (INR N) else (0,0)))).
  2:{ intros i Hi. rewrite csum_mul_l. f_equal. apply W_cancel; auto. }
  rewrite (csum_single N k); [|exact Hk|intros i Hi Hne; destruct (Nat.eqb_spec i k); [congruence|csimp; ring]].
  rewrite Nat.eqb_refl. ring.
Qed.

Lemma DFT_ext inv N x y k : (forall j, (j < N)%nat -> x j = y j) -> DFT inv N x k = DFT inv N y k.
Proof. intros H. apply csum_ext. intros j Hj. rewrite H by auto. reflexivity. Qed.

Lemma DFT_lin inv N a b x y k :
  DFT inv N (fun j => cadd (cmul a (x j)) (cmul b (y j))) k =
  cadd (cmul a (DFT inv N x k)) (cmul b (DFT inv N y k)).
Proof.
  unfold DFT. rewrite <- !csum_mul_l, <- csum_add. apply csum_ext. intros. ring.
Qed.

Lemma DFT_scal inv N a x k : DFT inv N (fun j => cmul a (x j)) k = cmul a (DFT inv N x k).
Proof. unfold DFT. rewrite <- csum_mul_l. apply csum_ext. intros; ring. Qed.

(** conjugation *)
Lemma conj_add a b : cconj (cadd a b) = cadd (cconj a) (cconj b : CC).
Proof. csimp; ring. Qed.
Lemma conj_mul a b : cconj (cmul a b) = cmul (cconj a) (cconj b : CC).
Proof. csimp; ring. Qed.
Lemma conj_conj (a : CC) : cconj (cconj a) = a.
Proof. csimp; ring. Qed.
Lemma conj_sub a b : cconj (csub a b) = csub (cconj a) (cconj b : CC).
Proof. csimp; ring. Qed.

Lemma csum_conj n f : cconj (csum n f) = csum n (fun i => cconj (f i)).
Proof. induction n as [|n IH]; cbn [csum]; [csimp; ring|]. rewrite conj_add, IH. reflexivity. Qed.

Lemma DFT_conj inv N x k : cconj (DFT inv N x k) = DFT (negb inv) N (fun j => cconj (x j)) k.
Proof.
  unfold DFT. rewrite csum_conj. apply csum_ext. intros j _. rewrite conj_mul, W_conj. reflexivity.
Qed.

(** Plancherel *)
Lemma rsum_ext n f g : (forall i, (i < n)%nat -> f i = g i) -> rsum n f = rsum n g.
Proof. induction n as [|n IH]; cbn; intros H; auto. rewrite IH, H by auto. reflexivity. Qed.

Lemma rsum_mul n a f : rsum n (fun i => a * f i) = a * rsum n f.
Proof. induction n as [|n IH]; cbn; [ring|]. rewrite IH. ring. Qed.

Lemma cnorm2_conj (z : CC) : cmul z (cconj z) = rc (cnorm2 z).
Proof. unfold cnorm2. csimp; ring. Qed.

Lemma csum_rc n f : csum n (fun i => rc (f i)) = rc (rsum n f).
Proof. induction n as [|n IH]; cbn [csum rsum]; [reflexivity|]. rewrite IH. csimp; ring. Qed.

Lemma Plancherel inv N x : (0 < N)%nat ->
  rsum N (fun k => cnorm2 (DFT inv N x k)) = INR N * rsum N (fun j => cnorm2 (x j)).
Proof.
  intros HN.
  assert (E : rc (rsum N (fun k => cnorm2 (DFT inv N x k))) = rc (INR N * rsum N (fun j => cnorm2 (x j)))).
  { rewrite <- csum_rc.
    rewrite (csum_ext N _ (fun k => csum N (fun j => cmul (x j) (cmul (cconj (DFT inv N x k)) (W inv N (k * j)))))).
    2:{ intros k _. rewrite <- cnorm2_conj. unfold DFT at 1. rewrite <- csum_mul_r. apply csum_ext.
        intros j _. rewrite (Nat.mul_comm k j). ring. }
    rewrite csum_swap.
    rewrite (csum_ext N _ (fun j => cmul (rc (INR N)) (rc (cnorm2 (x j))))).
    - rewrite csum_mul_l, csum_rc. csimp; ring.
    - intros j Hj. rewrite csum_mul_l.
      replace (csum N (fun k => cmul (cconj (DFT inv N x k)) (W inv N (k * j))))
        with (cmul (rc (INR N)) (cconj (x j))).
      + rewrite <- cnorm2_conj. ring.
      + rewrite <- (DFT_inverse (negb inv) N (fun i => cconj (x i)) j HN Hj).
        unfold DFT at 1. rewrite Bool.negb_involutive. apply csum_ext. intros k _. rewrite DFT_conj. reflexivity. }
  apply (f_equal fst) in E. exact E.
Qed.

(** rsum basics *)
Lemma rsum_add n f g : rsum n (fun i => f i + g i) = rsum n f + rsum n g.
Proof. induction n as [|n IH]; cbn; [ring|]. rewrite IH. ring. Qed.

(** ** concrete small roots, for the hand-written butterflies *)

Lemma W_4_1_fwd : W false 4 1 = cneg ci.
Proof.
  unfold W, cis. replace (-1 * (2 * PI * INR 1 / INR 4)) with (- (PI / 2)) by (cbn [INR]; field).
  csimp; [rewrite cos_neg, cos_PI2; ring|rewrite sin_neg, sin_PI2; ring].
Qed.

Lemma W_4_1_inv : W true 4 1 = ci.
Proof.
  rewrite <- (W_conj false), W_4_1_fwd. csimp; ring.
Qed.

Lemma W_8_1_fwd : W false 8 1 = (/ sqrt 2, - / sqrt 2).
Proof.
  unfold W, cis. replace (-1 * (2 * PI * INR 1 / INR 8)) with (- (PI / 4)) by (cbn [INR]; field).
  csimp; [rewrite cos_neg, cos_PI4; field|rewrite sin_neg, sin_PI4; field]; apply not_eq_sym, Rlt_not_eq, sqrt_lt_R0; lra.
Qed.

Lemma W_16_1_fwd : W false 16 1 = (cos (PI / 8), - sin (PI / 8)).
Proof.
  unfold W, cis. replace (-1 * (2 * PI * INR 1 / INR 16)) with (- (PI / 8)) by (cbn [INR]; field).
  csimp; [apply cos_neg|apply sin_neg].
Qed.

(** one full turn of an abstract primitive 2n-th root *)
Lemma cpow_add w a b : cpow w (a + b) = cmul (cpow w a) (cpow w b).
Proof. induction a as [|a IH]; cbn [cpow Nat.add]; [ring|]. rewrite IH. ring. Qed.

Lemma cpow_W inv N k : cpow (W inv N 1) k = W inv N k.
Proof. symmetry. apply W_pow. Qed.
