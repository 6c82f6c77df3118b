(** * C28: after setup the tables hold the exact roots of unity and weights

    Every statement starts from an arbitrary memory [m0] (hence any history) and gives the contents of the
    table entries explicitly: cis t = (cos t, sin t). *)

From Coq Require Import Reals List Arith ZArith Bool Lia Lra.
From Verif Require Import Scalar RealOps Spec DftFacts Mem MemFacts Omp Lanes Stage CoreStage Object ObjectFacts Engine ApiSpec FactorFacts
  Twid ModelPow PowDrive PowKern PowRun PowClassFacts PowSpec PowExact ModelSix SixIndex SixRun SixPart SixEight SixClass SixExact
  MixedStage MixedSpec ModelMixedClass MixedClassFacts MixedExact ModelApi History ApiFacts ComplexThms
  ModelReal RealFacts RealRun RealExact DctRun DctExact ModelBluestein BluesteinRun BluesteinExact.
Import ListNotations.
Local Open Scope nat_scope.

(** exp(-2 pi i e / N) *)
Definition root (N e : nat) : CC := cis (- (2 * PI * INR e / INR N))%R.
Lemma W_root N e : W false N e = root N e.
Proof. unfold W, root. f_equal. ring. Qed.
Lemma at0 (b i : nat) : (b, 0) +! i = (b, i).
Proof. reflexivity. Qed.

(** mixed radix: N+1 entries, by either initialiser *)
Theorem C28_mixed_radix_table : forall b N (m0 : mem CC), 0 < N ->
  forall c, In c [mixed_setup b N; mixed_setup_serial b N; mixed_setup_parallel b N] ->
  exists m1, Outcome c m0 m1 /\ forall p, p <= N -> m1 (b, p) = Val (root N p).
Proof.
  intros b N m0 HN c Hc.
  assert (HS : SetsUp (fun c => c = b) c (mixed_ready b N)).
  { destruct Hc as [<-|[<-|[<-|[]]]]; [apply mixed_setup_ok | apply mixed_setup_serial_ok | apply mixed_setup_parallel_ok]; reflexivity. }
  destruct (SetsUp_Outcome _ _ _ m0 HS) as (m1 & Ho & Hr & _). exists m1. split; [exact Ho|].
  intros p Hp. rewrite <- at0, (Hr p) by lia. f_equal. rewrite <- W_root. apply mixed_T_exact; lia.
Qed.
Print Assumptions C28_mixed_radix_table.

(** power-of-two, single-threaded: with Nr = N/r, the entries p + (k-1) Nr and N + r p + k (0 <= p < Nr, 1 <= k < r)
    hold exp(-2 pi i k p / N) *)
Theorem C28_power_of_two_serial_table : forall a b n (m0 : mem CC), radix a < 2 ^ n ->
  let N := 2 ^ n in let r := radix a in
  exists m1, Outcome (pow_setup_serial a b N) m0 m1 /\ (N < omp_min a -> pow_setup2 a b n = pow_setup_serial a b N) /\
    forall p k, p < N / r -> 1 <= k < r ->
      m1 (b, p + (k - 1) * (N / r)) = Val (root N (k * p)) /\ m1 (b, N + r * p + k) = Val (root N (k * p)).
Proof.
  intros a b n m0 Hr N r.
  assert (Hp : pow2 N) by (eexists; reflexivity).
  destruct (SetsUp_Outcome _ _ _ m0 (pow_setup_serial_ok a b N (fun c => c = b) eq_refl Hp Hr)) as (m1 & Ho & Ht & _).
  exists m1. split; [exact Ho|]. split.
  - intros Hm. unfold pow_setup2. cbv zeta. fold N. rewrite (proj2 (Nat.leb_gt N (radix a)) Hr), (proj2 (Nat.ltb_lt _ _) Hm). reflexivity.
  - intros p k Hpp Hk. destruct (Wt_exact a N Hp (Nat.lt_le_incl _ _ Hr) p k Hpp Hk) as [E1 E2]. fold r in E1, E2. rewrite <- !W_root.
    assert (Hq : (r - 1) * (N / r) = (r - 2) * (N / r) + N / r) by (destruct r as [|[|r']]; cbn [Nat.sub Nat.mul]; lia).
    split.
    + rewrite <- at0, Ht; [fold r; rewrite E1; reflexivity|]. left. fold r. nia.
    + rewrite <- at0, Ht; [fold r; rewrite E2; reflexivity|]. right. exists p, k. auto.
Qed.
Print Assumptions C28_power_of_two_serial_table.

(** power-of-two, multi-threaded: entry p < N/r holds exp(-2 pi i p / N) *)
Theorem C28_power_of_two_parallel_table : forall a b n (m0 : mem CC), radix a < 2 ^ n ->
  let N := 2 ^ n in let r := radix a in
  exists m1, Outcome (pow_setup_parallel a b N) m0 m1 /\ (omp_min a <= N -> pow_setup2 a b n = pow_setup_parallel a b N) /\
    forall p, p < N / r -> m1 (b, p) = Val (root N p).
Proof.
  intros a b n m0 Hr N r.
  destruct (SetsUp_Outcome _ _ _ m0 (pow_setup_parallel_ok a b N (fun c => c = b) eq_refl Hr)) as (m1 & Ho & Ht & _).
  exists m1. split; [exact Ho|]. split.
  - intros Hm. unfold pow_setup2. cbv zeta. fold N. rewrite (proj2 (Nat.leb_gt N (radix a)) Hr), (proj2 (Nat.ltb_ge _ _) Hm). reflexivity.
  - intros p Hpp. rewrite <- at0, Ht by exact Hpp. f_equal. rewrite <- W_root. apply Wr1_exact. lia.
Qed.
Print Assumptions C28_power_of_two_parallel_table.

Lemma sub_table n (m1 : mem CC) w : pow2 n -> 8 < n -> tab m1 (w, 0) (NWs n) (Wt_T (Op := ROps) 8 n) ->
  forall p k, p < n / 8 -> 1 <= k < 8 -> m1 (w, p + (k - 1) * (n / 8)) = Val (root n (k * p)) /\ m1 (w, n + 8 * p + k) = Val (root n (k * p)).
Proof.
  intros Hp H8 Ht p k Hpp Hk. destruct (Wt_exact DIF8 n Hp ltac:(cbn [radix]; lia) p k Hpp Hk) as [E1 E2]. cbn [radix] in E1, E2.
  rewrite <- !W_root. split.
  - rewrite <- at0, Ht; [rewrite E1; reflexivity|]. split; [auto|]. left. nia.
  - rewrite <- at0, Ht; [rewrite E2; reflexivity|]. split; [auto|]. right. exists p, k. auto.
Qed.
Lemma nxn_table n m (m1 : mem CC) w : n = 2 * m -> 0 < m -> n <= 2 ^ 12 -> tab m1 (w, 0) (Lt (4 * six_L n)) (wnxn_T (Op := ROps) n) ->
  forall u v d e, u <= v -> v < m -> d < 2 -> e < 2 ->
    m1 (w, 4 * (u * m + v - u * (u + 1) / 2) + (d + 2 * e)) = Val (root (n * n) ((2 * u + e) * (2 * v + d))).
Proof.
  intros Hn Hm H12 Ht u v d e Hu Hv Hd He.
  assert (Ei : wnxn_i m (2 * u) (2 * v) = u * m + v - u * (u + 1) / 2) by (unfold wnxn_i; cbv zeta; rewrite !half_2; reflexivity).
  rewrite <- Ei, <- at0. rewrite Ht.
  - rewrite (wnxn_T_at n m Hn Hm H12 u v (d + 2 * e)) by lia.
    assert (H4 : (d + 2 * e) mod 2 = d /\ (d + 2 * e) / 2 = e) by (split; [apply mod_lin|apply div_lin]; auto). destruct H4 as [-> ->].
    rewrite tw_val_exact by nia. rewrite W_root. do 2 f_equal. lia.
  - pose proof (idx_lt' n m Hn u v Hu Hv). unfold Lt. lia.
Qed.

(** six-step, N = n*n, n = 2m: the 2x2 block with corner (2u, 2v), u <= v < m, is stored at
    4 i .. 4 i + 3 with i = u m + v - u(u+1)/2 and holds exp(-2 pi i (row)(column) / N);
    the row transforms' table (buffer b+2) is a power-of-two table of length n *)
Theorem C28_six_step_tables : forall b h (m0 : mem CC), 3 <= h <= 12 -> let n := 2 ^ h in let m := 2 ^ (h - 1) in
  exists m1, Outcome (six_setup2 b (2 * h)) m0 m1 /\
    (forall u v d e, u <= v -> v < m -> d < 2 -> e < 2 ->
      m1 (b, 4 * (u * m + v - u * (u + 1) / 2) + (d + 2 * e)) = Val (root (n * n) ((2 * u + e) * (2 * v + d)))) /\
    (8 < n -> forall p k, p < n / 8 -> 1 <= k < 8 ->
      m1 (b + 2, p + (k - 1) * (n / 8)) = Val (root n (k * p)) /\ m1 (b + 2, n + 8 * p + k) = Val (root n (k * p))).
Proof.
  intros b h m0 Hh n m. assert (Hp : pow2 n) by (eexists; reflexivity).
  destruct (SetsUp_Outcome _ _ _ m0 (six_setup_ok b (2 * h) ltac:(lia))) as (m1 & O1 & R1 & _).
  exists m1. split; [exact O1|]. unfold six_ready in R1. cbv zeta in R1.
  assert (E5 : 2 * h <=? 5 = false) by (apply Nat.leb_gt; lia). rewrite E5 in R1.
  assert (Eo : Nat.odd (2 * h) = false) by (rewrite Nat.odd_mul; reflexivity). rewrite Eo in R1.
  assert (Eh : 2 * h / 2 = h) by (rewrite Nat.mul_comm; apply Nat.div_mul; lia). rewrite Eh in R1. destruct R1 as (R2 & R3).
  assert (En : n = 2 * m) by (unfold n, m; replace h with (S (h - 1)) at 1 by lia; reflexivity).
  replace (b + 2) with (S (S b)) by lia. split.
  - apply (nxn_table n m m1 b En); [apply pow2_pos | apply pow_le_12; lia | exact R2].
  - intros H8. apply (sub_table n m1 (S (S b)) Hp H8 R3).
Qed.
Print Assumptions C28_six_step_tables.

(** eight-step, N = 8 n n *)
Theorem C28_eight_step_tables : forall b h (m0 : mem CC), 2 <= h <= 10 -> let n := 2 ^ h in let m := 2 ^ (h - 1) in let N := 2 ^ (2 * h + 3) in
  exists m1, Outcome (six_setup2 b (2 * h + 3)) m0 m1 /\
    (forall p, p < N / 8 -> m1 (b, p) = Val (root N p)) /\
    (forall u v d e, u <= v -> v < m -> d < 2 -> e < 2 ->
      m1 (b + 1, 4 * (u * m + v - u * (u + 1) / 2) + (d + 2 * e)) = Val (root (n * n) ((2 * u + e) * (2 * v + d)))) /\
    (8 < n -> forall p k, p < n / 8 -> 1 <= k < 8 ->
      m1 (b + 2, p + (k - 1) * (n / 8)) = Val (root n (k * p)) /\ m1 (b + 2, n + 8 * p + k) = Val (root n (k * p))).
Proof.
  intros b h m0 Hh n m N. assert (Hp : pow2 n) by (eexists; reflexivity).
  destruct (SetsUp_Outcome _ _ _ m0 (six_setup_ok b (2 * h + 3) ltac:(lia))) as (m1 & O1 & R1 & _).
  exists m1. split; [exact O1|]. unfold six_ready in R1. cbv zeta in R1.
  assert (E5 : 2 * h + 3 <=? 5 = false) by (apply Nat.leb_gt; lia). rewrite E5 in R1.
  assert (Eo : Nat.odd (2 * h + 3) = true). { apply Nat.odd_spec. exists (h + 1). lia. }
  rewrite Eo in R1.
  assert (Eh : (2 * h + 3) / 2 - 1 = h). { replace (2 * h + 3) with (1 + (h + 1) * 2) by lia. rewrite Nat.div_add by lia. cbn. lia. }
  rewrite Eh in R1. destruct R1 as (R2 & R3 & R4).
  assert (En : n = 2 * m) by (unfold n, m; replace h with (S (h - 1)) at 1 by lia; reflexivity).
  replace (b + 2) with (S (S b)) by lia. replace (b + 1) with (S b) by lia. split; [|split].
  - intros p Hpp. rewrite <- at0, (R2 p Hpp), <- W_root. f_equal. apply Wr1_exact. apply pow2_pos.
  - apply (nxn_table n m m1 (S b) En); [apply pow2_pos | apply pow_le_12; lia | exact R3].
  - intros H8. apply (sub_table n m1 (S (S b)) Hp H8 R4).
Qed.
Print Assumptions C28_eight_step_tables.

(** real transform: entry e <= N of buffer b+3 holds ((1 + sin t)/2, (cos t)/2), t = 2 pi e / N; whichever of the
    initialisers (any N; N = 1, 2, 4; octant symmetry for powers of two) filled it *)
Theorem C28_real_table : forall b N (m0 : mem CC), 0 < N ->
  exists m1, Outcome (rfft_setup b N) m0 m1 /\
    forall e, e <= N -> let t := (2 * PI * INR e / INR N)%R in m1 (b + 3, e) = Val ((1 + sin t) / 2, cos t / 2)%R.
Proof.
  intros b N m0 HN. destruct (SetsUp_Outcome _ _ _ m0 (rfft_setup_ok b N)) as (m1 & Ho & (_ & Hr) & _).
  exists m1. split; [exact Ho|]. intros e He t. rewrite <- at0, (Hr HN e) by lia. f_equal. rewrite U_exact by lia. reflexivity.
Qed.
Print Assumptions C28_real_table.

(** DCT: entry e <= N of buffer b+4 holds exp(i pi e / (2N)) *)
Theorem C28_dct_table : forall b N (m0 : mem CC), 2 <= N -> mul_ok 2 N = true ->
  exists m1, Outcome (dct_setup b N) m0 m1 /\
    forall e, e <= N -> m1 (b + 4, e) = Val (cis (PI * INR e / (2 * INR N)))%R.
Proof.
  intros b N m0 HN Hm. destruct (SetsUp_Outcome _ _ _ m0 (dct_setup_ok b N Hm)) as (m1 & Ho & ((_ & Hr) & _) & _).
  exists m1. split; [exact Ho|]. intros e He. rewrite <- at0, (Hr HN e) by lia. f_equal. apply V_exact; lia.
Qed.
Print Assumptions C28_dct_table.

(** Bluestein: entry e <= 2N of buffer b+6 holds exp(-i pi e / N) *)
Theorem C28_bluestein_table : forall b N (m0 : mem CC), bl_length N ->
  exists m1, Outcome (bl_setup b N) m0 m1 /\
    forall e, e <= 2 * N -> m1 (b + 6, e) = Val (cis (- (PI * INR e / INR N)))%R.
Proof.
  intros b N m0 HN. destruct (SetsUp_Outcome _ _ _ m0 (bl_setup_ok b N HN)) as (m1 & Ho & Hr & _).
  exists m1. split; [exact Ho|]. intros e He. destruct (bl_pad N HN) as (n & E & _). destruct (Hr _ E) as (_ & _ & Ht).
  destruct HN as [HN _].
  rewrite <- at0, (Ht e) by lia. f_equal. rewrite bl_T_exact by lia. unfold W. f_equal.
  rewrite mult_INR. change (INR 2) with 2%R. field. apply not_0_INR. lia.
Qed.
Print Assumptions C28_bluestein_table.

(** the hypotheses are met, e.g. *)
Example C28_example : radix DIF8 < 2 ^ 10 /\ radix DIT16 < 2 ^ 12 /\ mul_ok 2 1000 = true /\ bl_length 1009.
Proof.
  split; [apply Nat.ltb_lt; vm_compute; reflexivity|]. split; [apply Nat.ltb_lt; vm_compute; reflexivity|].
  split; [reflexivity|]. split; [lia|]. change (2 ^ 29)%Z with 536870912%Z. lia.
Qed.
