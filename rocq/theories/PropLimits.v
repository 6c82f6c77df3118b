(** * Limits: length one, large prime factors, the factor search

    [undefined c m] (Undefined.v): some execution of call c from memory m reaches a state in which a thread's
    next operation is undefined behaviour.  The theorems below also say that no execution completes. *)

From Coq Require Import List Arith ZArith Bool Lia.
From Verif Require Import Scalar Mem MemFacts Omp Lanes Stage Object ObjectFacts Undefined Engine FactorFacts ModelMixed MixedDrive MixedRun Plan
  Steps Blocks ModelApi History ApiFacts ComplexThms ModelReal RealRun DctRun ModelBluestein BluesteinRun MixedFail.
Import ListNotations.

(** ** C06: length one *)
(** a complex transform of length 1 calls through a null pointer, whatever the state *)
Theorem C06_complex_length_1_undefined : forall (Op : Ops) b k x (m : mem C),
  (forall m', ~ call_exec (fft_run b 1 k x) m m') /\ undefined (fft_run b 1 k x) m.
Proof. intros Op b k x m. apply dies_undefined. constructor. apply single_dies. exact I. Qed.
Print Assumptions C06_complex_length_1_undefined.
(** hence so do the real transform and the DCT of length 2 *)
Theorem C06_real_length_2_undefined : forall (Op : Ops) b k x y (m : mem C),
  (forall m', ~ call_exec (rfft_run b 2 k x y) m m') /\ undefined (rfft_run b 2 k x y) m.
Proof.
  intros Op b k x y m. apply dies_undefined.
  destruct k; cbn [rfft_run meth_inv rfft_fwd rfft_inv Nat.ltb Nat.leb Nat.eqb]; apply Exists_app; right; apply Exists_app; left;
    constructor; apply single_dies; exact I.
Qed.
Print Assumptions C06_real_length_2_undefined.
Theorem C06_dct_length_2_undefined : forall (Op : Ops) b k x (m : mem C),
  (forall m', ~ call_exec (dct_run b 2 k x) m m') /\ undefined (dct_run b 2 k x) m.
Proof.
  intros Op b k x m. apply dies_undefined.
  assert (HF : forall kk xx yy, Exists act_dies (rfft_fwd b 2 kk xx yy)).
  { intros. cbn [rfft_fwd Nat.ltb Nat.leb Nat.eqb]. apply Exists_app; right; apply Exists_app; left. constructor; apply single_dies; exact I. }
  assert (HI : forall kk xx yy, Exists act_dies (rfft_inv b 2 kk xx yy)).
  { intros. cbn [rfft_inv Nat.ltb Nat.leb Nat.eqb]. apply Exists_app; right; apply Exists_app; left. constructor; apply single_dies; exact I. }
  destruct k; unfold dct_run, dct0_run, dct0_fwd, dct0_inv; cbn [Nat.ltb Nat.leb].
  1,2,3: apply Exists_app; right; apply Exists_app; left; apply HF.
  all: apply Exists_app; right; apply Exists_app; right; apply Exists_app; left; apply HI.
Qed.
Print Assumptions C06_dct_length_2_undefined.
(** length 1 is handled by the real transform (copy), the DCT and Bluestein (nothing to do) *)
Theorem C06_real_length_1 : forall (Op : Ops) b k x y (m : mem C) v,
  m x = Val v -> m y <> Free -> x <> y ->
  exists m', Outcome (rfft_run b 1 k x y) m m' /\ m' y = Val (mkC (Re v) s0) /\ forall l, l <> y -> m' l = m l.
Proof.
  intros Op b k x y m v Hx Hy Hxy.
  assert (E : rfft_run b 1 k x y = [Par [single (block [x +! 0] [y +! 0] (fun v => match v with [a] => [rval (Re a)] | _ => [] end))]])
    by (destruct k; reflexivity).
  assert (E0 : forall p : ptr, p +! 0 = p) by (intros [p q]; unfold padd; cbn; rewrite Nat.add_0_r; reflexivity).
  rewrite !E0 in E. rewrite E.
  exists (upd m y (rval (Re v))). split; [|split].
  - eapply CExec_Outcome. eapply (Step_s _ (eq x) (eq y)). split.
    + cbn. split; [auto|]. exists v. split; [auto|]. cbn. auto.
    + cbn. rewrite Hx. cbn. destruct (m y); [contradiction| |]; reflexivity.
  - unfold upd. destruct (loc_eqb_spec y y); [reflexivity|contradiction].
  - intros l Hl. unfold upd. destruct (loc_eqb_spec l y); [contradiction|reflexivity].
Qed.
Print Assumptions C06_real_length_1.
Theorem C06_dct_length_1 : forall (Op : Ops) b k x (m : mem C), Outcome (dct_run b 1 k x) m m.
Proof. intros Op b k x m. eapply CExec_Outcome. destruct k; exact (CExec_nil (fun _ => False) m). Qed.
Print Assumptions C06_dct_length_1.
(** (Bluestein: C21_bluestein_length_1) *)

(** ** C11: int overflow *)
Lemma fits_iff N : factors_fit N <-> forall p, prime p -> Nat.divide p N -> (Z.of_nat p <= 46340)%Z.
Proof.
  split; intros H p Hp Hd; specialize (H p Hp Hd).
  - unfold mul_ok in H. apply Z.leb_le in H. unfold INT_MAX in H. nia.
  - unfold mul_ok. apply Z.leb_le. unfold INT_MAX. nia.
Qed.
(** ComplexFFT, 2 <= N <= 2^30: a transform has defined behaviour exactly if every prime factor of N is at most
    46340.  Otherwise the product i*j of two residues modulo the factor overflows int. *)
Theorem C11_defined_iff_prime_factors_small : forall (Op : Ops) b N k x (m : mem C) X,
  2 <= N -> (Z.of_nat N <= 2 ^ 30)%Z -> fft_history b (Some N) m -> ~ fft_own b (fst x) -> holds m x N X ->
  ((exists m', Outcome (fft_run b N k x) m m') <-> forall p, prime p -> Nat.divide p N -> (Z.of_nat p <= 46340)%Z) /\
  ((forall p, prime p -> Nat.divide p N -> (Z.of_nat p <= 46340)%Z) \/ undefined (fft_run b N k x) m).
Proof.
  intros Op b N k x m X HN Hz Hh Hx HX.
  assert (Hbad : forall p, prime p -> Nat.divide p N -> mul_ok p p = false -> undefined (fft_run b N k x) m).
  { intros p Hp Hd Hm. apply (dies_undefined (fft_run b N k x) m). apply (fft0_run_dies p); auto; lia. }
  assert (Hdec : factors_fit N \/ exists p, prime p /\ Nat.divide p N /\ mul_ok p p = false).
  { assert (K : forall j, (forall p, p < j -> prime p -> Nat.divide p N -> mul_ok p p = true) \/ exists p, prime p /\ Nat.divide p N /\ mul_ok p p = false).
    { induction j as [|j [IH|IH]]; [left; lia| |auto].
      destruct (divide_dec j N) as [Hd|Hd].
      - destruct (mul_ok j j) eqn:Em; [left; intros p Hp; destruct (Nat.eq_dec p j) as [->|]; auto; apply IH; lia|].
        destruct (Nat.le_gt_cases 2 j) as [H2|H2].
        + destruct (smallest_exists j H2) as (d & Hd1). pose proof (smallest_prime _ _ Hd1) as Hpd.
          destruct (Nat.eq_dec d j) as [->|Hne]; [right; exists j; auto|].
          left. intros p Hp Hpp Hpd'. destruct (Nat.eq_dec p j) as [->|]; [|apply IH; auto; lia]. exfalso.
          destruct Hpp as [_ Hpp]. destruct Hd1 as (D1 & D2 & _). destruct (Hpp d D2); lia.
        + left. intros p Hp Hpp Hpd'. destruct (Nat.eq_dec p j) as [->|]; [destruct Hpp; lia|apply IH; auto; lia].
      - left. intros p Hp Hpp Hpd'. destruct (Nat.eq_dec p j) as [->|]; [contradiction|apply IH; auto; lia]. }
    destruct (K (S N)) as [H|H]; auto. left. intros p Hp Hd. apply H; auto. apply Nat.divide_pos_le in Hd; lia. }
  split.
  - rewrite <- fits_iff. split.
    + intros (m' & Ho) p Hp Hd. destruct (mul_ok p p) eqn:Em; auto. exfalso.
      exact (undefined_no_outcome _ _ _ (Hbad p Hp Hd Em) Ho).
    + intros Hfit. destruct (fft_call_any b N k x m X) as (m' & H & _); auto; [split; auto|]. exists m'. exact H.
  - rewrite <- fits_iff. destruct Hdec as [H|(p & Hp & Hd & Hm)]; [auto|]. right. exact (Hbad p Hp Hd Hm).
Qed.
Print Assumptions C11_defined_iff_prime_factors_small.
(** RealFFT and RealDCT inherit it through the transform of length N/2 *)
Theorem C11_real_overflow : forall (Op : Ops) b N k p x y (m : mem C),
  (Z.of_nat N <= 2 ^ 30)%Z -> prime p -> (46341 <= Z.of_nat p)%Z -> Nat.divide p (N / 2) -> 2 <= N ->
  (forall m', ~ call_exec (rfft_run b N k x y) m m') /\ undefined (rfft_run b N k x y) m.
Proof.
  intros Op b N k p x y m Hz Hp H46 Hd HN. apply dies_undefined.
  assert (Hm : mul_ok p p = false) by (unfold mul_ok; rewrite Z.leb_gt; unfold INT_MAX; nia).
  assert (H2 : 0 < N / 2) by (apply Nat.div_str_pos; lia).
  assert (Hle : N / 2 <= N) by (apply Nat.div_le_upper_bound; lia).
  assert (HD : forall kk xx yy, Exists act_dies (fft0_run b (N / 2) kk xx yy)) by (intros; apply (fft0_run_dies p); auto; lia).
  unfold rfft_run, rfft_inv, rfft_fwd. cbv zeta.
  assert (H1 : N <> 1) by lia. apply Nat.eqb_neq in H1. rewrite H1.
  destruct (Nat.ltb_spec N 1); [lia|]. destruct (meth_inv k); apply Exists_app; right; apply Exists_app; left; apply HD.
Qed.
Print Assumptions C11_real_overflow.
(** DCT setup computes 2*N in int *)
Theorem C11_dct_setup_overflow : forall (Op : Ops) b N (m : mem C), (2 ^ 30 <= Z.of_nat N)%Z ->
  (forall m', ~ call_exec (dct_setup b N) m m') /\ undefined (dct_setup b N) m.
Proof.
  intros Op b N m H. apply dies_undefined. unfold dct_setup, dct0_setup.
  assert (Hm : mul_ok 2 N = false).
  { unfold mul_ok. rewrite Z.leb_gt. unfold INT_MAX. change (2 ^ 30)%Z with 1073741824%Z in H. lia. }
  rewrite Hm. cbn [negb]. rewrite <- app_assoc. apply Exists_app. right. apply Exists_cons_tl. constructor. apply single_dies. exact I.
Qed.
Print Assumptions C11_dct_setup_overflow.
(** Bluestein: overflow of the padded length *)
Theorem C11_bluestein_setup_overflow : forall (Op : Ops) b N (m : mem C), pad_loop 32 1 (2 * N - 1) = None -> 1 <= N ->
  (forall m', ~ call_exec (bl_setup b N) m m') /\ undefined (bl_setup b N) m.
Proof.
  intros Op b N m H HN. apply dies_undefined. unfold bl_setup. cbv zeta. rewrite H. destruct (Nat.ltb_spec N 1); [lia|].
  destruct (negb (mul_ok 2 N)); constructor; apply single_dies; exact I.
Qed.
Print Assumptions C11_bluestein_setup_overflow.
(** a length with such a factor exists: the prime 46349 *)
Theorem C11_example : exists p, Z.of_nat p = 46349%Z /\ prime p.
Proof.
  destruct (nat_of 46349) as (p & E); [lia|]. exists p. split; [exact E|]. split; [lia|].
  intros e (c & Hc).
  destruct (Nat.eq_dec e 1) as [|H1]; [auto|]. destruct (Nat.eq_dec c 1) as [->|Hc1]; [right; lia|]. exfalso.
  assert (Hz : (Z.of_nat c * Z.of_nat e = 46349)%Z) by (rewrite <- E, Hc; lia).
  assert (K : forall d : Z, (1 < d)%Z -> (d * d <= 46349)%Z -> (46349 mod d <> 0)%Z).
  { intros d H2 H3. assert (B : (d <= 215)%Z) by nia.
    assert (T : forallb (fun i => negb (46349 mod Z.of_nat i =? 0)%Z) (seq 2 214) = true) by (vm_compute; reflexivity).
    rewrite forallb_forall in T. specialize (T (Z.to_nat d)). rewrite Z2Nat.id in T by lia.
    assert (Hin : In (Z.to_nat d) (seq 2 214)) by (apply in_seq; lia).
    specialize (T Hin). apply negb_true_iff in T. apply Z.eqb_neq in T. exact T. }
  assert (0 < Z.of_nat c)%Z by (destruct c; lia). assert (0 < Z.of_nat e)%Z by (destruct e; lia).
  destruct (Z.le_gt_cases (Z.of_nat c) (Z.of_nat e)).
  - apply (K (Z.of_nat c)); [lia|nia|]. rewrite <- Hz, Z.mul_comm. apply Z_mod_mult.
  - apply (K (Z.of_nat e)); [lia|nia|]. rewrite <- Hz. apply Z_mod_mult.
Qed.

(** ** C12: the factor search *)
(** For every 2 <= N <= 2^30 there is a plan (Plan.v: radices 8, 4, 2, 5, 3 while they divide the remaining
    length, then repeatedly the smallest remaining divisor, which is prime), its radices multiply to N, and each
    of the four recursive functions (forward or inverse, single thread or team) is the composition of the passes
    of that plan: the recursion and every search end, within the steps the model gives them and without overflow *)
Theorem C12_factor_search : forall (Op : Ops) N, 2 <= N -> (Z.of_nat N <= 2 ^ 30)%Z ->
  exists ps, plan N ps /\ fold_right Nat.mul 1 (map pass_radix ps) = N /\
    forall eo x y W,
      fwdfft (S N) N 1 eo x y W = compose _ (fun p q => p ;;; q) skip (ekS false) (ckS false) (aekS false) (ackS false) (fun n x y => for_ n (copy_body x y)) ps N 1 eo x y W /\
      invfft (S N) N 1 eo x y W = compose _ (fun p q => p ;;; q) skip (ekS true) (ckS true) (aekS true) (ackS true) (fun n x y => for_ n (copy_body x y)) ps N 1 eo x y W /\
      fwdfftp (S N) N 1 eo x y W = compose _ (fun p q => p ++ q) [] (ekP false) (ckP false) (aekP false) (ackP false) (fun n x y => [(n, copy_body x y)]) ps N 1 eo x y W /\
      invfftp (S N) N 1 eo x y W = compose _ (fun p q => p ++ q) [] (ekP true) (ckP true) (aekP true) (ackP true) (fun n x y => [(n, copy_body x y)]) ps N 1 eo x y W.
Proof.
  intros Op N HN Hz. destruct (plan_exists N) as (ps & Hp); [lia|]. exists ps. split; [exact Hp|]. split; [apply plan_product; auto|].
  intros eo x y W. rewrite fwdfft_drive, invfft_drive, fwdfftp_drive, invfftp_drive.
  repeat split; apply drive_plan; auto.
Qed.
Print Assumptions C12_factor_search.
(** every pass splits off a divisor > 1 of the remaining length, and generic radices are primes >= 7 *)
Theorem C12_passes : forall n p rest, plan n (p :: rest) ->
  1 < pass_radix p /\ Nat.divide (pass_radix p) n /\ plan (n / pass_radix p) rest /\
  match p with Fixed r => In r [8; 4; 2; 5; 3] | Generic k => prime k /\ 7 <= k /\ forall d, 2 <= d -> Nat.divide d n -> k <= d end.
Proof.
  intros n p rest H. destruct (plan_radix n p rest H) as (H1 & H2 & H3). split; [auto|split; [auto|split; [auto|]]].
  inversion H as [|? r ? _ HF _|? k ? _ D2 D3 D5 Hk _]; subst.
  - cbn [In]. destruct HF as [(-> & _) | [(-> & _) | [(-> & _) | [(-> & _) | (-> & _)]]]]; auto 6.
  - split; [eapply smallest_prime; eauto|]. destruct Hk as (K1 & K2 & K3). split; [|exact K3].
    destruct (Nat.le_gt_cases 7 k); auto. exfalso.
    assert (Hc : k = 2 \/ k = 3 \/ k = 4 \/ k = 5 \/ k = 6) by lia.
    destruct Hc as [-> | [-> | [-> | [-> | ->]]]]; auto; apply D2; (eapply Nat.divide_trans; [|exact K2]); [exists 2|exists 3]; lia.
Qed.
Print Assumptions C12_passes.
(** a plan with both kinds of passes: 8 * 5 * 7 * 7 = 1960 *)
Example C12_example : plan 1960 [Fixed 8; Fixed 5; Generic 7; Generic 7].
Proof.
  assert (S7 : forall n, smallest_divisor 7 (7 * n) \/ exists e, 2 <= e < 7 /\ Nat.divide e (7 * n)).
  { intros n. assert (K : forall j, (forall e, 2 <= e < j -> ~ Nat.divide e (7 * n)) \/ exists e, 2 <= e < j /\ Nat.divide e (7 * n)).
    { induction j as [|j [IH|(e & He & Hd)]]; [left; lia| |right; exists e; split; [lia|auto]].
      destruct (Nat.le_gt_cases 2 j); [|left; intros e He; lia].
      destruct (divide_dec j (7 * n)); [right; exists j; split; [lia|auto]|].
      left. intros e He. destruct (Nat.eq_dec e j) as [->|]; auto. apply IH. lia. }
    destruct (K 7) as [H|H]; auto. left. apply find_divisor; [lia|exists n; lia|]. intros e H1 H2. apply H. lia. }
  assert (D : forall a n, 0 < a -> n mod a <> 0 -> ~ Nat.divide a n) by (intros a n Ha H Hd; apply H; apply mod_divide; auto).
  apply plan_fixed; [lia|left; split; [auto|exists 245; reflexivity]|]. change (1960 / 8) with 245.
  apply plan_fixed; [lia|right; right; right; left; split; [auto|split; [exists 49; reflexivity|apply D; [lia|discriminate]]]|]. change (245 / 5) with 49.
  apply plan_generic; try lia; try (apply D; [lia|discriminate]).
  { destruct (S7 7) as [H|(e & He & Hd)]; [exact H|]. exfalso. change (7 * 7) with 49 in Hd.
    assert (Hc : e = 2 \/ e = 3 \/ e = 4 \/ e = 5 \/ e = 6) by lia.
    destruct Hc as [-> | [-> | [-> | [-> | ->]]]]; revert Hd; apply D; try lia; discriminate. }
  change (49 / 7) with 7.
  apply plan_generic; try lia; try (apply D; [lia|discriminate]).
  { destruct (S7 1) as [H|(e & He & Hd)]; [exact H|]. exfalso. change (7 * 1) with 7 in Hd.
    assert (Hc : e = 2 \/ e = 3 \/ e = 4 \/ e = 5 \/ e = 6) by lia.
    destruct Hc as [-> | [-> | [-> | [-> | ->]]]]; revert Hd; apply D; try lia; discriminate. }
  change (7 / 7) with 1. constructor.
Qed.
