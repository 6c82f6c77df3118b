(** * Accuracy of the cosine transform in rounded arithmetic

    Reading guide: see PropAccuracy.v for [rounding], [fl], [error_bound], [factorisation], [within] and
    PropDct.v for the hypotheses.  [dct_spec k N v] (RealSpec.v) is the exact result of method k. *)

From Coq Require Import Reals ZArith List Arith Bool Lia Lra Psatz.
From Verif Require Import Scalar RealOps Spec DftFacts Norm Simd Round Mem MemFacts Omp Lanes Stage Object Engine ApiSpec FactorFacts
  ModelApi History ApiFacts Footprint ComplexThms ModelReal RealFacts RealRun RealExact GObj RealObj RealSpec RealThms DctRun DctThms
  RoundMixed RoundApi PropAccuracy RoundReal RoundDct.
From Verif Require DctExact PropDct RoundStage.
Import ListNotations.
Local Open Scope R_scope.

Definition real_vec (X : nat -> CC) : Prop := forall j, X j = rc (Re (X j)).
Lemma re_of_vec N X : real_vec X -> nrm N (re_of X) = nrm N X.
Proof. intros H. apply nrm_ext. intros i _. symmetry. apply H. Qed.
Lemma vec_rc v : real_vec (fun j => rc (v j)).
Proof. intros j. reflexivity. Qed.
Lemma vec_sub X Y : real_vec X -> real_vec Y -> real_vec (vsub X Y).
Proof. intros H1 H2 j. unfold vsub. rewrite (H1 j), (H2 j). csimp; ring. Qed.

Section Err.
Variables (A : rounding) (bd : build).
Notation F := (fl A bd).
Lemma vec_F N k X : real_vec (@dct_F F N k X).
Proof. intros j. unfold dct_F, df_out, rval. change (@s0 F) with (rnd A (IZR 0)). rewrite rd0. reflexivity. Qed.
Lemma vec_G N k X : real_vec (@dct_G F N k X).
Proof. intros j. unfold dct_G, di_out, rfft_G. destruct (Nat.even j); rewrite ri_out_F; reflexivity. Qed.
End Err.
Lemma vec_F0 N k X : real_vec (@dct_F ROps N k X).
Proof. intros j. reflexivity. Qed.
Lemma vec_G0 N k X : real_vec (@dct_G ROps N k X).
Proof. intros j. unfold dct_G, di_out, rfft_G, ri_out, rval. destruct (Nat.even j); reflexivity. Qed.

Section Both.
Variables (A : rounding) (bd : build) (N : nat) (ps : list nat).
Hypothesis HL : dct_length N.
Hypothesis Hp : factorisation ps N.
Notation F := (fl A bd).
Notation e := (error_bound A ps).
Notation P := (floor A N).
Notation Q := (sqrt (INR N) * floor A N).
Lemma PQ : 0 <= P <= Q.
Proof. pose proof (floor_pos A N) as H. pose proof (RoundStage.sqrt_ge1 N (Dpos N HL)). split; [auto|]. rewrite <- (Rmult_1_l P) at 1. apply Rmult_le_compat_r; auto. Qed.
Lemma f2P k : factor (meth_scaling k) N * sqrt (INR N) * P <= Q.
Proof.
  pose proof (floor_pos A N) as H. pose proof (factor_range k N (Dpos N HL)). apply Rmult_le_compat_r; [auto|]. rewrite <- (Rmult_1_l (sqrt (INR N))) at 2. apply Rmult_le_compat_r; [apply sqrt_pos|lra].
Qed.
Lemma F_err k X : meth_inv k = false -> nrm N (vsub (@dct_F F N k X) (@dct_F ROps N k X)) <= e * (nrm N (dsp N (@dct_F ROps N k X)) + P).
Proof.
  intros Hk. destruct (fact_prod _ _ Hp) as [H1 H2]. destruct (half_primes N ps (proj1 HL) H1 H2) as (qs & Hq1 & Hq2 & E1 & E2).
  eapply Rle_trans; [apply (dct_F_err A bd N k qs X); auto|]. apply Rmult_le_compat_r; [apply nrm_psi|]. rewrite bound_EE. apply Rplus_le_compat_r. rewrite E1, E2. apply EE_mono; lia.
Qed.
Lemma G_err k X : meth_inv k = true -> nrm N (vsub (@dct_G F N k X) (@dct_G ROps N k X)) <= e * (nrm N (@dct_G ROps N k X) + P).
Proof.
  intros Hk. destruct (fact_prod _ _ Hp) as [H1 H2]. destruct (half_primes N ps (proj1 HL) H1 H2) as (qs & Hq1 & Hq2 & E1 & E2).
  eapply Rle_trans; [apply (dct_G_err A bd N k qs X); auto|]. apply Rmult_le_compat_r; [apply nrm_psi|]. rewrite bound_EE. apply Rplus_le_compat_r. rewrite E1, E2. apply EE_mono; lia.
Qed.

(** the exact transforms are linear; norms of their images *)
Lemma sub_nrm (T X Y : nat -> CC) : (forall i, (i < N)%nat -> csub (X i) (Y i) = T i) -> nrm N (vsub X Y) = nrm N T.
Proof. intros H. apply nrm_ext. intros i Hi. apply H; auto. Qed.
Lemma dsp_sub X Y k : csub (dsp N X k) (dsp N Y k) = dsp N (vsub X Y) k.
Proof. unfold DctExact.dsp, DctExact.rv, vsub. destruct (k =? 0)%nat; [csimp; ring|]. generalize (cis (dphi N k)). intros w. csimp; ring. Qed.
Lemma G_sub k X Y : meth_inv k = true -> nrm N (vsub (@dct_G ROps N k X) (@dct_G ROps N k Y)) = factor (meth_scaling k) N * sqrt (INR N) * nrm N (dsp N (vsub X Y)).
Proof.
  intros Hk. rewrite <- dct_G_norm by auto. apply sub_nrm. intros i Hi. rewrite !DctExact.dct_G_pos, !DctExact.rfft_G_dsp by (auto using DctExact.pos_lt).
  rewrite transform_sub. apply transform_ext. intros j Hj. apply dsp_sub.
Qed.
Lemma F_sub k X Y : meth_inv k = false -> nrm N (vsub (@dct_F ROps N k X) (@dct_F ROps N k Y)) <= factor (meth_scaling k) N * sqrt (INR N) * nrm N (re_of (vsub X Y)).
Proof.
  intros Hk. rewrite <- dct_F_norm by auto. rewrite (sub_nrm (@dct_F ROps N k (vsub X Y))).
  - rewrite <- re_of_vec by apply vec_F0. apply dsp_ge; auto.
  - intros i Hi. rewrite !DctExact.dct_F_Re by auto.
    assert (E : transform k N (re_of (df_in N (vsub X Y))) i = csub (transform k N (re_of (df_in N X)) i) (transform k N (re_of (df_in N Y)) i)).
    { rewrite transform_sub. apply transform_ext. intros j Hj. unfold re_of, df_in, vsub. destruct (j <? N / 2)%nat; csimp; ring. }
    rewrite E. generalize (cis (dphi N i)) (transform k N (re_of (df_in N X)) i) (transform k N (re_of (df_in N Y)) i). intros a b c. csimp; ring.
Qed.

(** forward, then inverse *)
Lemma F_then_G k1 k2 X : real_vec X -> meth_inv k1 = false -> undoes k1 k2 = true ->
  within N ((1 + e) * (1 + sqrt 2 * e) - 1) Q (@dct_G F N k2 (@dct_F F N k1 X)) X.
Proof.
  intros HX Hk1 Hu. assert (Hk2 : meth_inv k2 = true) by (unfold undoes in Hu; rewrite Hk1 in Hu; destruct (meth_inv k2); auto; discriminate).
  pose proof (undoes_factor k1 k2 N Hu (Dpos N HL)) as Hf. pose proof (factor_pos (meth_scaling k2) N (Dpos N HL)) as Hf2p. pose proof (sqrt_pos (INR N)) as HsN. pose proof PQ as [HP HPQ]. pose proof (f2P k2) as HfP.
  set (Y' := @dct_F F N k1 X : nat -> CC). set (Y := @dct_F ROps N k1 X). set (W := @dct_G ROps N k2 Y').
  unfold within. change (nrm N (vsub (@dct_G F N k2 Y') X) <= ((1 + e) * (1 + sqrt 2 * e) - 1) * (nrm N X + Q)).
  eapply Rle_trans; [apply (nrm_tri3 _ _ W)|]. pose proof (G_err k2 Y' Hk2) as H1. fold W in H1. pose proof (nrm_near N W X) as H2.
  assert (H3 : nrm N (vsub W X) <= sqrt 2 * e * (nrm N X + Q)).
  { rewrite (nrm_ext N (vsub W X) (vsub W (@dct_G ROps N k2 Y))).
    2:{ intros i Hi. unfold vsub. f_equal. unfold Y. rewrite DctExact.dct_inv_fwd by auto. apply HX. }
    unfold W. rewrite G_sub by auto. pose proof (F_err k1 X Hk1) as H4. fold Y in H4. change (nrm N (vsub Y' Y) <= e * (nrm N (dsp N Y) + P)) in H4.
    pose proof (dct_F_norm N HL k1 X Hk1) as H5. fold Y in H5. rewrite re_of_vec in H5 by auto. rewrite H5 in H4.
    pose proof (dsp_le N HL (vsub Y' Y)) as H6. rewrite re_of_vec in H6 by (apply vec_sub; [apply vec_F|apply vec_F0]).
    set (f1 := factor (meth_scaling k1) N * sqrt (INR N)) in *. set (f2 := factor (meth_scaling k2) N * sqrt (INR N)) in *.
    assert (0 <= f2) by (apply Rmult_le_pos; lra). pose proof (sqrt_pos 2) as S2.
    apply Rle_trans with (f2 * (sqrt 2 * (e * (f1 * nrm N X + P)))).
    - apply Rmult_le_compat_l; auto. eapply Rle_trans; [exact H6|]. apply Rmult_le_compat_l; auto.
    - pose proof (bound_pos A ps) as He. replace (f2 * (sqrt 2 * (e * (f1 * nrm N X + P)))) with (f2 * f1 * (sqrt 2 * e * nrm N X) + sqrt 2 * e * (f2 * P)) by ring. rewrite Hf.
      assert (sqrt 2 * e * (f2 * P) <= sqrt 2 * e * Q) by (apply Rmult_le_compat_l; [apply Rmult_le_pos; auto|auto]). lra. }
  pose proof (bound_pos A ps) as He. assert (H4 : e * (nrm N W + P) <= e * (nrm N X + sqrt 2 * e * (nrm N X + Q) + Q)) by (apply Rmult_le_compat_l; lra). lra.
Qed.
Lemma G_then_F k1 k2 X : real_vec X -> meth_inv k1 = true -> undoes k1 k2 = true ->
  within N (sqrt 2 * ((1 + e) * (1 + e) - 1)) Q (@dct_F F N k2 (@dct_G F N k1 X)) X.
Proof.
  intros HX Hk1 Hu. assert (Hk2 : meth_inv k2 = false) by (unfold undoes in Hu; rewrite Hk1 in Hu; destruct (meth_inv k2); auto; discriminate).
  pose proof (undoes_factor k1 k2 N Hu (Dpos N HL)) as Hf. pose proof (factor_pos (meth_scaling k2) N (Dpos N HL)) as Hf2p. pose proof (sqrt_pos (INR N)) as HsN. pose proof PQ as [HP HPQ]. pose proof (f2P k2) as HfP.
  set (Y' := @dct_G F N k1 X : nat -> CC). set (Y := @dct_G ROps N k1 X). set (W := @dct_F ROps N k2 Y').
  unfold within. change (nrm N (vsub (@dct_F F N k2 Y') X) <= (sqrt 2 * ((1 + e) * (1 + e) - 1)) * (nrm N X + Q)).
  eapply Rle_trans; [apply (nrm_tri3 _ _ W)|]. pose proof (F_err k2 Y' Hk2) as H1. fold W in H1.
  pose proof (dct_F_norm N HL k2 Y' Hk2) as H2. fold W in H2. rewrite H2, re_of_vec in H1 by apply vec_G. clear H2.
  pose proof (G_err k1 X Hk1) as H3. fold Y in H3. change (nrm N (vsub Y' Y) <= e * (nrm N Y + P)) in H3.
  pose proof (nrm_near N Y' Y) as H4. pose proof (dct_G_norm N HL k1 X Hk1) as H5. fold Y in H5.
  pose proof (dsp_le N HL X) as H6. rewrite re_of_vec in H6 by auto.
  assert (H7 : nrm N (vsub W X) <= factor (meth_scaling k2) N * sqrt (INR N) * nrm N (vsub Y' Y)).
  { rewrite (nrm_ext N (vsub W X) (vsub W (@dct_F ROps N k2 Y))).
    2:{ intros i Hi. unfold vsub. f_equal. unfold Y. rewrite DctExact.dct_fwd_inv by auto. apply HX. }
    unfold W. eapply Rle_trans; [apply F_sub; auto|]. rewrite re_of_vec by (apply vec_sub; [apply vec_G|apply vec_G0]). apply Rle_refl. }
  set (f1 := factor (meth_scaling k1) N * sqrt (INR N)) in *. set (f2 := factor (meth_scaling k2) N * sqrt (INR N)) in *.
  assert (P2 : 0 <= f2) by (apply Rmult_le_pos; lra). pose proof (bound_pos A ps) as He. pose proof (nrm_pos N X) as HxP.
  rewrite H5 in *. set (d := nrm N (dsp N X)) in *.
  assert (Q1 : f2 * nrm N (vsub Y' Y) <= e * (d + Q)).
  { apply Rle_trans with (f2 * (e * (f1 * d + P))); [apply Rmult_le_compat_l; auto|]. replace (f2 * (e * (f1 * d + P))) with (f2 * f1 * (e * d) + e * (f2 * P)) by ring. rewrite Hf.
    assert (e * (f2 * P) <= e * Q) by (apply Rmult_le_compat_l; auto). lra. }
  assert (Q2 : f2 * nrm N Y' <= d + e * (d + Q)).
  { apply Rle_trans with (f2 * (f1 * d) + f2 * nrm N (vsub Y' Y)); [rewrite <- Rmult_plus_distr_l; apply Rmult_le_compat_l; auto|].
    replace (f2 * (f1 * d)) with (f2 * f1 * d) by ring. rewrite Hf. lra. }
  assert (Q3 : e * (f2 * nrm N Y' + P) <= e * (d + e * (d + Q) + Q)) by (apply Rmult_le_compat_l; lra).
  assert (S2 : 1 <= sqrt 2) by (rewrite <- sqrt_1 at 1; apply sqrt_le_1_alt; lra). assert (HQ2 : 1 * Q <= sqrt 2 * Q) by (apply Rmult_le_compat_r; lra).
  assert (Q4 : ((1 + e) * (1 + e) - 1) * (d + Q) <= ((1 + e) * (1 + e) - 1) * (sqrt 2 * (nrm N X + Q))) by (apply Rmult_le_compat_l; [nra|lra]).
  lra.
Qed.
End Both.

Lemma spec_res N k v i : dct_length N -> (i < N)%nat -> @dct_res ROps N k (fun j => rc (v j)) i = rc (dct_spec k N v i).
Proof. intros HN Hi. rewrite DctExact.dct_res_exact by auto. reflexivity. Qed.
Lemma vec_res A bd N k X j : rc (Re (@dct_res (fl A bd) N k X j)) = @dct_res (fl A bd) N k X j.
Proof. unfold dct_res. symmetry. destruct (dmeth_inv k); [apply vec_G|apply vec_F]. Qed.

(** C39: forward methods within sqrt 2 times, inverse methods within the bound of the complex transform of length N *)
Definition dct_bound (A : rounding) (ps : list nat) (k : dmeth) : R := match k with Dfwd | Dfwd0 | Dfwdn => sqrt 2 * error_bound A ps | _ => error_bound A ps end.
Lemma dct_within A bd N k ps v : dct_length N -> factorisation ps N ->
  within N (dct_bound A ps k) (floor A N) (@dct_res (fl A bd) N k (fun j => rc (v j))) (fun j => rc (dct_spec k N v j)).
Proof.
  intros HN Hp. unfold within. rewrite (nrm_ext N (fun j => rc (dct_spec k N v j)) (@dct_res ROps N k (fun j => rc (v j)))) by (intros i Hi; symmetry; apply spec_res; auto).
  rewrite (nrm_ext N _ (vsub (@dct_res (fl A bd) N k (fun j => rc (v j))) (@dct_res ROps N k (fun j => rc (v j))))).
  2:{ intros i Hi. unfold vsub. rewrite spec_res by auto. reflexivity. }
  assert (HF : forall kd, meth_inv kd = false -> nrm N (vsub (@dct_F (fl A bd) N kd (fun j => rc (v j))) (@dct_F ROps N kd (fun j => rc (v j)))) <= sqrt 2 * error_bound A ps * (nrm N (@dct_F ROps N kd (fun j => rc (v j))) + floor A N)).
  { intros kd Hkd. eapply Rle_trans; [apply (F_err A bd N ps HN Hp kd); auto|]. pose proof (dsp_le N HN (@dct_F ROps N kd (fun j => rc (v j)))) as G. rewrite re_of_vec in G by apply vec_F0.
    pose proof (floor_pos A N) as HF0. assert (S2 : 1 <= sqrt 2) by (rewrite <- sqrt_1 at 1; apply sqrt_le_1_alt; lra). assert (1 * floor A N <= sqrt 2 * floor A N) by (apply Rmult_le_compat_r; lra).
    rewrite (Rmult_comm (sqrt 2)), Rmult_assoc. apply Rmult_le_compat_l; [apply bound_pos|lra]. }
  unfold dct_res. destruct k; cbn [dmeth_inv dct_bound dct_kind]; try (apply HF; reflexivity); apply (G_err A bd N ps HN Hp); auto.
Qed.
Theorem C39_dct_accuracy : forall A bd b N k x (m : mem (@C (fl A bd))) v ps,
  dct_length N -> dct_history b (Some N) m -> ~ dct_own b (fst x) -> holds m x N (fun j => rc (v j)) -> factorisation ps N ->
  exists m' r, Outcome (@dct_run (fl A bd) b N k x) m m' /\ holds m' x N (fun j => rc (r j)) /\
    within N (dct_bound A ps k) (floor A N) (fun j => rc (r j)) (fun j => rc (dct_spec k N v j)).
Proof.
  intros A bd b N k x m v ps HN Hh Hx HX Hp. destruct (dct_call_ok b N k x m _ HN Hh Hx HX) as (m' & H1 & H2 & _).
  exists m', (fun j => Re (@dct_res (fl A bd) N k (fun j => rc (v j)) j)). split; [exact H1|]. split.
  - intros j Hj. rewrite vec_res. apply H2. auto.
  - pose proof (dct_within A bd N k ps v HN Hp) as W. unfold within in *. erewrite nrm_ext; [exact W|]. intros i Hi. cbv beta. rewrite vec_res. reflexivity.
Qed.
Print Assumptions C39_dct_accuracy.

Lemma dct_trip_within A bd N k1 k2 ps v :
  In (k1, k2) [(Dfwd, Dinv); (Dfwd, Dinv0); (Dfwdn, Dinv); (Dfwdn, Dinv0); (Dfwd0, Dinvn);
    (Dinv, Dfwd); (Dinv, Dfwdn); (Dinv0, Dfwd); (Dinv0, Dfwdn); (Dinvn, Dfwd0)] -> dct_length N -> factorisation ps N ->
  within N (sqrt 2 * ((1 + error_bound A ps) * (1 + error_bound A ps) - 1)) (sqrt (INR N) * floor A N)
    (@dct_res (fl A bd) N k2 (@dct_res (fl A bd) N k1 (fun j => rc (v j)))) (fun j => rc (v j)).
Proof.
  intros Hk HN Hp.
  assert (W : forall ka kb, meth_inv ka = false -> undoes ka kb = true ->
    within N (sqrt 2 * ((1 + error_bound A ps) * (1 + error_bound A ps) - 1)) (sqrt (INR N) * floor A N) (@dct_G (fl A bd) N kb (@dct_F (fl A bd) N ka (fun j => rc (v j)))) (fun j => rc (v j))).
  { intros ka kb Hka Hu. pose proof (F_then_G A bd N ps HN Hp ka kb _ (vec_rc v) Hka Hu) as G. unfold within in *. eapply Rle_trans; [exact G|]. apply Rmult_le_compat_r.
    { pose proof (nrm_pos N (fun j => rc (v j))). pose proof (PQ A N HN). lra. }
    pose proof (bound_pos A ps) as He. assert (1 <= sqrt 2) by (rewrite <- sqrt_1 at 1; apply sqrt_le_1_alt; lra). nra. }
  unfold dct_res. repeat (destruct Hk as [[= <- <-]|Hk]; [cbn [dmeth_inv dct_kind]; first [apply W; reflexivity|apply G_then_F; auto using vec_rc]|]); destruct Hk.
Qed.

(** C40: a method, anything that leaves x and the object alone, and the method that undoes it *)
Theorem C40_dct_round_trip_accuracy : forall k1 k2 A bd b N x (m : mem (@C (fl A bd))) v ps,
  In (k1, k2) [(Dfwd, Dinv); (Dfwd, Dinv0); (Dfwdn, Dinv); (Dfwdn, Dinv0); (Dfwd0, Dinvn);
    (Dinv, Dfwd); (Dinv, Dfwdn); (Dinv0, Dfwd); (Dinv0, Dfwdn); (Dinvn, Dfwd0)] ->
  dct_length N -> dct_history b (Some N) m -> ~ dct_own b (fst x) -> holds m x N (fun j => rc (v j)) -> factorisation ps N ->
  exists m1, Outcome (@dct_run (fl A bd) b N k1 x) m m1 /\
    forall m2, (forall l, dct_own b (fst l) \/ inR x N l -> m2 l = m1 l) ->
    exists m3 Z, Outcome (@dct_run (fl A bd) b N k2 x) m2 m3 /\ holds m3 x N Z /\
      within N (sqrt 2 * ((1 + error_bound A ps) * (1 + error_bound A ps) - 1)) (sqrt (INR N) * floor A N) Z (fun j => rc (v j)).
Proof.
  intros k1 k2 A bd b N x m v ps Hk HN Hh Hx HX Hp. destruct (dct_call_ok b N k1 x m _ HN Hh Hx HX) as (m1 & H1 & H2 & _ & _ & H5 & _).
  exists m1. split; [exact H1|]. intros m2 Hf. set (Y := @dct_res (fl A bd) N k1 (fun j => rc (v j))) in *.
  destruct (dct_call_ok b N k2 x m2 Y HN) as (m3 & H6 & H7 & _); [|exact Hx| |].
  - eapply h_other; [exact H5|]. auto.
  - intros i Hi. rewrite Hf by (right; apply inR_i; auto). apply H2. auto.
  - exists m3, (@dct_res (fl A bd) N k2 Y). split; [exact H6|]. split; [exact H7|]. apply dct_trip_within; auto.
Qed.
Print Assumptions C40_dct_round_trip_accuracy.

(** the hypotheses are met (PropDct.v); length 1024, binary64: error below 2 * 10^-12 *)
Theorem C39_example : forall bd b k x (m : mem (@C (fl binary64 bd))) v,
  dct_history b (Some 1024%nat) m -> ~ dct_own b (fst x) -> holds m x 1024 (fun j => rc (v j)) ->
  exists m' r, Outcome (@dct_run (fl binary64 bd) b 1024 k x) m m' /\ holds m' x 1024 (fun j => rc (r j)) /\
    within 1024 (2 * / 10 ^ 12) (floor binary64 1024) (fun j => rc (r j)) (fun j => rc (dct_spec k 1024 v j)).
Proof.
  intros bd b k x m v Hh Hx HX.
  assert (HR : dct_length 1024) by (split; [apply (proj1 real_lengths_ok 10%nat); lia|reflexivity]).
  destruct (C39_dct_accuracy binary64 bd b 1024 k x m v _ HR Hh Hx HX factorisation_1024) as (m' & Y & H1 & H2 & H3).
  exists m', Y. split; [exact H1|]. split; [exact H2|]. unfold within in *. eapply Rle_trans; [exact H3|]. apply Rmult_le_compat_r; [apply (nrm_psi binary64)|].
  pose proof bound_1024 as HB. pose proof (bound_pos binary64 (repeat 2%nat 10)) as HP. unfold dct_bound.
  assert (sqrt 2 <= 2) by (apply sq_le; [lra|]; rewrite sqrt_def; lra). pose proof (sqrt_pos 2). destruct k; nra.
Qed.
Print Assumptions C39_example.
