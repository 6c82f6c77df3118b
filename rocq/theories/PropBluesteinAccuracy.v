(** * Accuracy of Bluestein's transform in rounded arithmetic

    Reading guide: see PropAccuracy.v for [rounding], [fl], [table_error], [within] and PropBluestein.v for the
    hypotheses.  [padded N l]: 2^l is the least power of two not below 2N-1, the length of the convolution.
    The bound holds for every N, prime or not; unlike that of the other transforms it grows like sqrt of the
    length, because the spectrum of the chirp is bounded by the norm of the chirp only. *)

From Coq Require Import Reals ZArith List Arith Bool Lia Lra Psatz.
From Verif Require Import Scalar RealOps Spec DftFacts Norm Simd Round Mem MemFacts Omp Lanes Stage Object Engine ApiSpec FactorFacts
  ModelApi History ApiFacts Footprint ComplexThms GObj ModelReal ModelBluestein BluesteinRun BluesteinExact RoundApi PropAccuracy RoundReal RoundBluestein.
From Verif Require PropBluestein.
Import ListNotations.
Local Open Scope R_scope.

Definition padded (N l : nat) : Prop := (2 * N - 1 <= 2 ^ l)%nat /\ forall l', (2 * N - 1 <= 2 ^ l')%nat -> (l <= l')%nat.
Definition bluestein_bound (A : rounding) (l : nat) : R :=
  sqrt (2 * 2 ^ l) * ((1 + uu A) ^ (21 + 180 * l) * (1 + table_error A) ^ (3 + 45 * l) - 1).

Lemma bb_EE A l : bluestein_bound A l = sqrt (2 * INR (2 ^ l)) * (EE A (21 + l * 180) (3 + l * 45) - 1).
Proof.
  unfold bluestein_bound, EE. rewrite pow_INR. change (INR 2) with (1 + 1). replace (1 + 1) with 2 by ring.
  rewrite (Nat.mul_comm 180), (Nat.mul_comm 45). reflexivity.
Qed.
Lemma bb_pos A l : 0 <= bluestein_bound A l.
Proof. rewrite bb_EE. apply Rmult_le_pos; [apply sqrt_pos|]. pose proof (EE_ge1 A (21 + l * 180) (3 + l * 45)). lra. Qed.
Lemma padded_loop N l : bl_length N -> padded N l -> pad_loop 32 1 (2 * N - 1) = Some (2 ^ l)%nat.
Proof.
  intros HN [H1 H2]. destruct (PropBluestein.C23_padding N HN) as (_ & n & L & E & -> & G1 & G2 & _). rewrite E. do 2 f_equal.
  apply Nat.le_antisymm; auto.
Qed.
Lemma bl_31 N : bl_length N -> (Z.of_nat (2 * N) <= 2 ^ 31)%Z.
Proof. intros [_ H]. rewrite Nat2Z.inj_mul. eapply Z.le_trans; [apply Z.mul_le_mono_nonneg_l; [lia|exact H]|]. apply Z.leb_le. reflexivity. Qed.

(** magnitude below which the errors are absolute: 4 * 2^l times twice the smallest normal number *)
Definition bl_floor (A : rounding) (l : nat) : R := 4 * floor A (2 ^ l).
Lemma blf_pos A l : 0 <= bl_floor A l.
Proof. unfold bl_floor. pose proof (floor_pos A (2 ^ l)). lra. Qed.
Lemma bl_within A bd N k l X : bl_length N -> padded N l -> within N (bluestein_bound A l) (bl_floor A l) (@bl_F (fl A bd) N k X) (transform k N X).
Proof.
  intros HN Hl. pose proof (padded_loop N l HN Hl) as EL. unfold within.
  change (nrm N (vsub (@bl_F (fl A bd) N k X) (transform k N X)) <= bluestein_bound A l * (nrm N (transform k N X) + bl_floor A l)).
  destruct (Nat.le_gt_cases 2 N) as [H2|H2].
  - destruct (bl_pad_valid N _ HN EL) as [HL HV].
    rewrite (nrm_ext N _ (vsub (@bl_FL (fl A bd) N (2 ^ l) k X) (transform k N X))).
    2:{ intros i Hi. unfold vsub, bl_F. destruct (Nat.ltb_spec N 2); [lia|]. rewrite EL. reflexivity. }
    eapply Rle_trans; [apply (bl_FL_err A bd N l H2 HL (HV H2) (bl_31 N HN))|]. rewrite bb_EE. unfold bl_floor, floor, psi. apply Req_le. ring.
  - assert (N = 1%nat) as -> by (unfold bl_length in HN; lia).
    rewrite (nrm_ext 1 _ (fun _ => (0, 0))).
    + rewrite nrm_0. apply Rmult_le_pos; [apply bb_pos|]. pose proof (blf_pos A l). pose proof (nrm_pos 1 (transform k 1 X)). lra.
    + intros i Hi. assert (i = 0%nat) as -> by lia. unfold vsub. rewrite transform_1. change (@bl_F (fl A bd) 1 k X 0%nat) with (X 0%nat). csimp; ring.
Qed.

(** C42 *)
Theorem C42_bluestein_accuracy : forall A bd b N k x (m : mem (@C (fl A bd))) X l,
  bl_length N -> bl_history b (Some N) m -> ~ bl_own b (fst x) -> holds m x N X -> padded N l ->
  exists m' Y, Outcome (@bl_run (fl A bd) b N k x) m m' /\ holds m' x N Y /\ within N (bluestein_bound A l) (bl_floor A l) Y (transform k N X).
Proof.
  intros A bd b N k x m X l HN Hh Hx HX Hl. destruct (bl_call_ok b N k x m X HN Hh Hx HX) as (m' & H1 & H2 & _).
  exists m', (@bl_F (fl A bd) N k X). split; [exact H1|]. split; [exact H2|]. apply bl_within; auto.
Qed.
Print Assumptions C42_bluestein_accuracy.

(** C43 *)
Theorem C43_bluestein_round_trip_accuracy : forall k1 k2 A bd b N x (m : mem (@C (fl A bd))) X l,
  In (k1, k2) [(fwd, inv); (fwd, inv0); (fwdn, inv); (fwdn, inv0); (fwd0, invn); (fwdu, invu);
    (inv, fwd); (inv, fwdn); (inv0, fwd); (inv0, fwdn); (invn, fwd0); (invu, fwdu)] ->
  bl_length N -> bl_history b (Some N) m -> ~ bl_own b (fst x) -> holds m x N X -> padded N l ->
  exists m1, Outcome (@bl_run (fl A bd) b N k1 x) m m1 /\
    forall m2, (forall l, bl_own b (fst l) \/ inR x N l -> m2 l = m1 l) ->
    exists m3 Z, Outcome (@bl_run (fl A bd) b N k2 x) m2 m3 /\ holds m3 x N Z /\
      within N ((1 + bluestein_bound A l) * (1 + bluestein_bound A l) - 1) (sqrt (INR N) * bl_floor A l) Z X.
Proof.
  intros k1 k2 A bd b N x m X l Hk HN Hh Hx HX Hl. destruct (bl_call_ok b N k1 x m X HN Hh Hx HX) as (m1 & H1 & H2 & _ & H4 & _).
  exists m1. split; [exact H1|]. intros m2 Hf. set (Y := @bl_F (fl A bd) N k1 X) in *.
  destruct (bl_call_ok b N k2 x m2 Y HN) as (m3 & H5 & H6 & _); [|exact Hx| |].
  - eapply h_other; [exact H4|]. auto.
  - intros i Hi. rewrite Hf by (right; apply inR_i; auto). apply H2. auto.
  - exists m3, (@bl_F (fl A bd) N k2 Y). split; [exact H5|]. split; [exact H6|].
    assert (Hu : undoes k1 k2 = true) by (repeat (destruct Hk as [[= <- <-]|Hk]; [reflexivity|]); destruct Hk).
    apply (round_trip_err N k1 k2 _ _ X Y); [unfold bl_length in HN; lia|apply bb_pos|apply blf_pos|exact Hu| |]; apply bl_within; auto.
Qed.
Print Assumptions C43_bluestein_round_trip_accuracy.

(** the bound in the form sqrt (2 L) * g / (1 - g) *)
Theorem C42_bound : forall A l, let g := INR (21 + 180 * l) * uu A + INR (3 + 45 * l) * table_error A in
  g < 1 -> bluestein_bound A l <= sqrt (2 * 2 ^ l) * (g / (1 - g)).
Proof.
  intros A l g Hg. unfold bluestein_bound. apply Rmult_le_compat_l; [apply sqrt_pos|].
  set (a := (21 + 180 * l)%nat) in *. set (b := (3 + 45 * l)%nat) in *.
  pose proof (u0 A) as Hu. pose proof (table_error_pos A) as Ht. set (u := uu A) in *. set (t := table_error A) in *.
  pose proof (pow_gamma u a Hu) as P1. pose proof (pow_gamma t b Ht) as P2.
  assert (Q1 : 1 <= (1 + u) ^ a) by (apply pow_R1_Rle; lra). assert (Q2 : 1 <= (1 + t) ^ b) by (apply pow_R1_Rle; lra).
  set (x := (1 + u) ^ a) in *. set (y := (1 + t) ^ b) in *. pose proof (pos_INR a) as Ha. pose proof (pos_INR b) as Hb.
  assert (G1 : 0 <= INR a * u) by nra. assert (G2 : 0 <= INR b * t) by nra. unfold g in *.
  set (p := INR a * u) in *. set (q := INR b * t) in *. clearbody p q x y.
  assert (M : x * y * (1 - (p + q)) <= 1).
  { assert (x * y * (1 - (p + q)) <= x * y * ((1 - p) * (1 - q))) by (apply Rmult_le_compat_l; nra).
    assert (x * y * ((1 - p) * (1 - q)) = (x * (1 - p)) * (y * (1 - q))) as E by ring. rewrite E in H.
    assert ((x * (1 - p)) * (y * (1 - q)) <= 1 * 1) by (apply Rmult_le_compat; nra). lra. }
  apply (Rmult_le_reg_r (1 - (p + q))); [lra|]. unfold Rdiv. rewrite Rmult_assoc, Rinv_l by lra. lra.
Qed.

(** a concrete case: the prime length 1009 in binary64, any build: relative error at most 2 * 10^-10 *)
Example padded_1009 : padded 1009 11.
Proof.
  split; [apply Nat.leb_le; vm_compute; reflexivity|]. intros l' H. destruct (Nat.le_gt_cases 11 l'); auto. exfalso.
  assert (2 ^ l' <= 2 ^ 10)%nat by (apply Nat.pow_le_mono_r; lia). change (2 ^ 10)%nat with 1024%nat in *. lia.
Qed.
Lemma bound_1009 : bluestein_bound binary64 11 <= 2 * / 10 ^ 10.
Proof.
  pose proof (C42_bound binary64 11) as HB. cbv zeta in HB. change (21 + 180 * 11)%nat with 2001%nat in HB. change (3 + 45 * 11)%nat with 498%nat in HB.
  cbn [uu binary64] in HB.
  pose proof table_error_64 as HT. pose proof u64_pos as P. rewrite !INR_IZR_INZ in HB. change (Z.of_nat 2001) with 2001%Z in HB. change (Z.of_nat 498) with 498%Z in HB.
  assert (S : u64 <= / (9 * 10 ^ 15)).
  { rewrite u64_val. apply Rinv_le_contravar; [lra|]. rewrite (pow_IZR 2 53), (pow_IZR 10 15), <- mult_IZR. apply IZR_le. vm_compute. discriminate. }
  pose proof (table_error_pos binary64) as Tp.
  set (g := 2001 * u64 + 498 * table_error binary64) in *.
  assert (Hg : g <= 23415 * / (9 * 10 ^ 15)) by (unfold g; nra).
  assert (Hg1 : 23415 * / (9 * 10 ^ 15) <= 27 / 10 * / 10 ^ 12) by (rewrite Rinv_mult; lra).
  assert (Hg2 : g <= / 100) by lra. assert (Hg0 : 0 <= g) by (unfold g; nra).
  assert (Hs : sqrt (2 * 2 ^ 11) = 64) by (replace (2 * 2 ^ 11) with (64 * 64) by ring; apply sqrt_square; lra).
  rewrite Hs in HB. eapply Rle_trans; [apply HB; lra|].
  assert (E : g / (1 - g) <= 3 * / 10 ^ 12).
  { apply (Rmult_le_reg_r (1 - g)); [lra|]. unfold Rdiv. rewrite Rmult_assoc, Rinv_l by lra. assert (0 < / 10 ^ 12) by (apply Rinv_0_lt_compat; lra). nra. }
  lra.
Qed.
Theorem C42_example : forall bd b k x (m : mem (@C (fl binary64 bd))) X,
  bl_history b (Some 1009%nat) m -> ~ bl_own b (fst x) -> holds m x 1009 X ->
  exists m' Y, Outcome (@bl_run (fl binary64 bd) b 1009 k x) m m' /\ holds m' x 1009 Y /\ within 1009 (2 * / 10 ^ 10) (bl_floor binary64 11) Y (transform k 1009 X).
Proof.
  intros bd b k x m X Hh Hx HX.
  assert (HV : bl_length 1009) by (split; [lia|]; apply Z.leb_le; reflexivity).
  destruct (C42_bluestein_accuracy binary64 bd b 1009 k x m X _ HV Hh Hx HX padded_1009) as (m' & Y & H1 & H2 & H3).
  exists m', Y. split; [exact H1|]. split; [exact H2|]. unfold within in *. eapply Rle_trans; [exact H3|]. apply Rmult_le_compat_r; [|exact bound_1009]. pose proof (blf_pos binary64 11). pose proof (nrm_pos 1009 (transform k 1009 X)). lra.
Qed.
Print Assumptions C42_example.
