(** * C68: the quarter-table lookup *)

From Coq Require Import Reals List Arith ZArith Bool Lia Lra.
From Verif Require Import Scalar RealOps Spec DftFacts Mem MemFacts Omp Lanes Stage ModelModq.
Import ListNotations.

Lemma mylog2_fuel f : forall N, N <= f -> mylog2_f f N = mylog2_f N N.
Proof.
  induction f as [f IH] using lt_wf_ind. intros N HN. destruct f as [|f]; [replace N with 0 by lia; reflexivity|].
  destruct N as [|N]; [reflexivity|]. cbn [mylog2_f]. destruct (Nat.leb_spec (S N) 1) as [|H]; [reflexivity|].
  assert (D : S N / 2 <= N) by (apply Nat.lt_succ_r, Nat.div_lt; lia). rewrite (IH f) by lia. f_equal.
  symmetry. destruct (Nat.eq_dec N f) as [->|]; [apply IH; lia|]. apply IH; lia.
Qed.
(** the equation of the C++ function, for every N *)
Theorem mylog2_unfold : forall N, mylog2 N = if N <=? 1 then 0 else 1 + mylog2 (N / 2).
Proof.
  intros [|N]; [reflexivity|]. unfold mylog2. cbn [mylog2_f]. destruct (Nat.leb_spec (S N) 1) as [|H]; [reflexivity|]. f_equal.
  apply mylog2_fuel. apply Nat.lt_succ_r, Nat.div_lt; lia.
Qed.
(** mylog2 is the integer part of the binary logarithm *)
Theorem C68_mylog2 : forall N, 0 < N -> 2 ^ mylog2 N <= N < 2 ^ (mylog2 N + 1).
Proof.
  induction N as [N IH] using lt_wf_ind. intros HN. rewrite mylog2_unfold. destruct (Nat.leb_spec N 1) as [H|H].
  - replace N with 1 by lia. cbn. lia.
  - assert (D1 : 0 < N / 2) by (apply Nat.div_str_pos; lia). assert (D2 : N / 2 < N) by (apply Nat.div_lt; lia).
    destruct (IH (N / 2) D2 D1) as [A B]. pose proof (Nat.div_mod N 2 ltac:(lia)) as E. pose proof (Nat.mod_upper_bound N 2 ltac:(lia)).
    cbn [Nat.add]. rewrite Nat.pow_succ_r'. replace (S (mylog2 (N / 2) + 1)) with (S (S (mylog2 (N / 2)))) by lia.
    rewrite Nat.add_1_r, Nat.pow_succ_r' in B. rewrite !Nat.pow_succ_r'. lia.
Qed.
Print Assumptions C68_mylog2.
Lemma mylog2_pow n : mylog2 (2 ^ n) = n.
Proof.
  assert (H : 0 < 2 ^ n) by (apply Nat.neq_0_lt_0, Nat.pow_nonzero; lia). destruct (C68_mylog2 (2 ^ n) H) as [A B].
  apply Nat.pow_le_mono_r_iff in A; [|lia]. apply Nat.pow_lt_mono_r_iff in B; lia.
Qed.

(** Any arithmetic: for a power of two from 4 on and s*p in the range of int, the lookup reads only the first quarter of the table. *)
Theorem C68_reads_first_quarter : forall (Op : Ops) n s p W (m : mem C) T,
  mul_ok s p = true -> holds m W (2 ^ n) T ->
  exists r, r < 2 ^ n /\ r = (s * p) mod 2 ^ n /\
  run (modq (2 ^ (n + 2)) s W p) m =
    Some (match (s * p / 2 ^ n) mod 4 with 0 => T r | 1 => mjx (T r) | 2 => cneg (T r) | _ => jx (T r) end, m).
Proof.
  intros Op n s p W m T Hm HT. assert (Hq : 2 ^ (n + 2) / 4 = 2 ^ n) by (rewrite Nat.pow_add_r; change (2 ^ 2) with 4; apply Nat.div_mul; lia).
  assert (Hp : 2 ^ n <> 0) by (apply Nat.pow_nonzero; lia).
  exists ((s * p) mod 2 ^ n). split; [apply Nat.mod_upper_bound, Hp|]. split; [reflexivity|].
  unfold modq. rewrite Hq. destruct (Nat.eqb_spec (2 ^ n) 0); [contradiction|]. unfold imul. rewrite Hm. cbn [bind].
  rewrite mylog2_pow, Nat.shiftr_div_pow2. replace (2 ^ n - 1) with (Nat.ones n) by (rewrite Nat.ones_equiv; lia).
  change 3 with (Nat.ones 2). rewrite !Nat.land_ones. change (2 ^ 2) with 4. cbn [bind load run].
  rewrite HT by (apply Nat.mod_upper_bound, Hp). reflexivity.
Qed.
Print Assumptions C68_reads_first_quarter.

(** Exact arithmetic: when the first quarter of the table holds exp(-2 pi i r / N), the lookup gives exp(-2 pi i s p / N), for every
    multiple s p, however large (as long as it is an int). *)
Theorem C68_quarter_table : forall n s p tab (m : mem CC),
  mul_ok s p = true -> holds m tab (2 ^ n) (fun r => cis (- (2 * PI * INR r / INR (2 ^ (n + 2))))) ->
  run (modq (2 ^ (n + 2)) s tab p) m = Some (cis (- (2 * PI * INR (s * p) / INR (2 ^ (n + 2)))), m).
Proof.
  intros n s p tab m Hm HT. destruct (C68_reads_first_quarter ROps n s p tab m _ Hm HT) as (r & Hr & Er & ->). do 2 f_equal.
  set (N := 2 ^ (n + 2)). assert (Hp : 0 < 2 ^ n) by (apply Nat.neq_0_lt_0, Nat.pow_nonzero; lia).
  assert (EN : N = 4 * 2 ^ n) by (unfold N; rewrite Nat.pow_add_r; change (2 ^ 2) with 4; lia).
  assert (K : forall j, cis (- (2 * PI * INR j / INR N)) = W false N j) by (intros j; unfold W; f_equal; lra). rewrite !K. clear K.
  set (q := s * p / 2 ^ n). assert (E : s * p = r + 2 ^ n * q) by (rewrite Er; unfold q; pose proof (Nat.div_mod (s * p) (2 ^ n) ltac:(lia)); lia).
  assert (Ew : W false N (2 ^ n * q) = W false 4 (q mod 4)) by (rewrite EN, (Nat.mul_comm 4), W_scale, W_mod by lia; reflexivity).
  rewrite E, W_add, Ew.
  pose proof (Nat.mod_upper_bound q 4 ltac:(lia)) as Hq. set (t := q mod 4) in *. clearbody t. generalize (W false N r). intros z.
  assert (Q1 : W false 4 1 = cneg ci) by apply W_4_1_fwd.
  assert (Q2 : W false 4 2 = cneg c1) by (rewrite (W_add false 4 1 1 : W false 4 2 = _), Q1; csimp; ring).
  assert (Q3 : W false 4 3 = ci) by (rewrite (W_add false 4 1 2 : W false 4 3 = _), Q1, Q2; csimp; ring).
  destruct t as [|[|[|[|t]]]]; [rewrite W_0|rewrite Q1|rewrite Q2|rewrite Q3|lia]; unfold mjx, jx; csimp; ring.
Qed.
Print Assumptions C68_quarter_table.

(** the hypotheses are met: N = 16, s = 3, p = 5 (15 = 3 + 3*4): the fourth quarter *)
Example C68_hypotheses_met : mul_ok 3 5 = true /\ exists m : mem CC, holds m (0, 0) (2 ^ 2) (fun r => cis (- (2 * PI * INR r / INR (2 ^ (2 + 2))))).
Proof. split; [reflexivity|]. exists (fun l => Val (cis (- (2 * PI * INR (snd l) / INR (2 ^ (2 + 2)))))). intros i Hi. reflexivity. Qed.
(** lengths divisible by 4 that are not powers of two are not supported: for N = 12 the lookup of 4/12 reads entry 0 *)
Example C68_not_other_lengths : forall (Op : Ops) m T, holds m (0, 0) 3 T -> run (modq 12 1 (0, 0) 4) m = Some (@cneg Op (T 0), m).
Proof.
  intros Op m T HT. unfold modq. change (12 / 4 =? 0) with false. change (Nat.land 4 (12 / 4 - 1)) with 0. change (mylog2 (12 / 4)) with 1.
  change (@imul Op 1 4) with (@Ret (@C Op) nat 4). cbn [bind]. change (Nat.land (Nat.shiftr 4 1) 3) with 2. cbv beta iota. cbn [load bind run].
  change (Nat.land 4 (12 / 4 - 1)) with 0. rewrite (HT 0) by lia. reflexivity.
Qed.
