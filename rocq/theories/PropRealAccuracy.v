(** * Accuracy of the real transform in rounded arithmetic

    Reading guide: see PropAccuracy.v for [rounding], [fl], [error_bound], [factorisation], [within] and
    PropReal.v for the hypotheses.  [transform k N X] is the exact result of method k.  The error bound of RealFFT for
    length N is that of ComplexFFT for length N. *)

From Coq Require Import Reals ZArith List Arith Bool Lia Lra.
From Verif Require Import Scalar RealOps Spec DftFacts Norm Simd Round Mem MemFacts Omp Lanes Stage Object Engine ApiSpec FactorFacts
  ModelApi History ApiFacts Footprint ComplexThms ModelReal RealFacts RealRun RealExact GObj RealObj RealSpec RealThms
  RoundMixed RoundApi PropAccuracy RoundReal.
Import ListNotations.
Local Open Scope R_scope.

Lemma rfft_F_within A bd N k ps (v : nat -> R) : real_length N -> meth_inv k = false -> factorisation ps N ->
  within N (error_bound A ps) (floor A N) (@rfft_F (fl A bd) N k (fun j => rc (v j))) (transform k N (fun j => rc (v j))).
Proof.
  intros HN Hk Hp. destruct (fact_prod _ _ Hp) as [H1 H2]. unfold within. rewrite bound_EE.
  exact (rfft_F_err A bd N k ps (fun j => rc (v j)) HN Hk H1 H2).
Qed.
(** a full Hermitian spectrum *)
Definition hermitian (N : nat) (X : nat -> CC) : Prop := Im (X 0%nat) = 0 /\ forall i, (0 < i < N)%nat -> X (N - i)%nat = cconj (X i).
Lemma hermitian_h N X : real_length N -> hermitian N X -> Im (X (N / 2)%nat) = 0.
Proof.
  intros (EN & _ & Hv) [_ H]. assert (2 <= N / 2)%nat by (destruct Hv; auto). specialize (H (N / 2)%nat ltac:(lia)). apply self_conj_real.
  rewrite <- H. f_equal. lia.
Qed.
Lemma hermitian_eq N X i : real_length N -> hermitian N X -> (i < N)%nat -> hermit N X i = X i.
Proof.
  intros (EN & _ & Hv) [_ H] Hi. unfold hermit. destruct (Nat.leb_spec i (N / 2)); auto. rewrite <- H by lia. f_equal. lia.
Qed.
Lemma rfft_G_within A bd N k ps (X : nat -> CC) : real_length N -> meth_inv k = true -> hermitian N X -> factorisation ps N ->
  within N (error_bound A ps) (floor A N) (@rfft_G (fl A bd) N k X) (transform k N X).
Proof.
  intros HN Hk HX Hp. destruct (fact_prod _ _ Hp) as [H1 H2]. unfold within. rewrite bound_EE.
  pose proof (rfft_G_err A bd N k ps X HN Hk (proj1 HX) (hermitian_h N X HN HX) H1 H2) as G.
  assert (E : forall i, transform k N (hermit N X) i = transform k N X i).
  { intros i. apply transform_ext. intros j Hj. apply hermitian_eq; auto. }
  rewrite (nrm_ext N (transform k N (hermit N X)) (transform k N X)) in G by auto.
  rewrite (nrm_ext N (vsub (@rfft_G (fl A bd) N k X) (transform k N (hermit N X))) (fun i => @csub ROps (@rfft_G (fl A bd) N k X i) (transform k N X i))) in G by (intros i Hi; unfold vsub; rewrite E; reflexivity).
  exact G.
Qed.
(** the computed spectrum is exactly Hermitian *)
Lemma rfft_F_hermitian A bd N k (X : nat -> CC) : real_length N -> hermitian N (@rfft_F (fl A bd) N k X).
Proof.
  intros (EN & _ & Hv). assert (Hh : (2 <= N / 2)%nat) by (destruct Hv; auto). unfold rfft_F. set (h := (N / 2)%nat) in *.
  set (Z := fft0_F h fwd0 (rf_z X)). set (f := @rf_half (fl A bd) N k (U_T N) Z).
  assert (Hz : @s0 (fl A bd) = 0) by (change (rnd A (IZR 0) = 0); apply rd0). 
  split; [exact Hz|]. intros i Hi. unfold rf_out. cbv zeta. fold h f.
  assert (CJ : forall z : CC, z = cconj (cconj z)) by (intros z; csimp; ring).
  destruct (Nat.eqb_spec (N - i) 0); [lia|]. destruct (Nat.eqb_spec i 0); [lia|].
  destruct (Nat.ltb_spec (N - i) h); destruct (Nat.ltb_spec i h); try lia.
  - destruct (Nat.eqb_spec i h); [lia|]. apply CJ.
  - destruct (Nat.eqb_spec (N - i) h); [lia|]. replace (N - (N - i))%nat with i by lia. reflexivity.
  - destruct (Nat.eqb_spec (N - i) h); [|lia]. destruct (Nat.eqb_spec i h); [|lia]. unfold rval. rewrite Hz. match goal with |- mkC ?a _ = _ => set (v := a) end. change ((v, 0) = (v, - 0) :> CC). rewrite Ropp_0. reflexivity.
Qed.

(** C37: every forward method, real data; the spectrum is moreover exactly Hermitian *)
Theorem C37_real_accuracy : forall A bd b N k x y (m : mem (@C (fl A bd))) v ps,
  real_length N -> meth_inv k = false -> rfft_history b (Some N) m ->
  ~ fft_own b (fst x) -> ~ fft_own b (fst y) -> disjR x N y N -> allocd m (inR y N) ->
  holds m x N (fun j => rc (v j)) -> factorisation ps N ->
  exists m' Y, Outcome (@rfft_run (fl A bd) b N k x y) m m' /\ holds m' y N Y /\
    within N (error_bound A ps) (floor A N) Y (transform k N (fun j => rc (v j))) /\ hermitian N Y.
Proof.
  intros A bd b N k x y m v ps HN Hk Hh Hx Hy Hd Ha HX Hp.
  destruct (rfft_call_ok b N k x y m _ HN Hh Hx Hy Hd Ha HX) as (m' & H1 & H2 & _). unfold rfft_res in H2. rewrite Hk in H2.
  eexists m', _. split; [exact H1|]. split; [exact H2|]. split; [apply rfft_F_within; auto|apply rfft_F_hermitian; auto].
Qed.
Print Assumptions C37_real_accuracy.
(** every inverse method, Hermitian spectrum *)
Theorem C37_real_inverse_accuracy : forall A bd b N k x y (m : mem (@C (fl A bd))) X ps,
  real_length N -> meth_inv k = true -> rfft_history b (Some N) m ->
  ~ fft_own b (fst x) -> ~ fft_own b (fst y) -> disjR x N y N -> allocd m (inR y N) ->
  holds m x N X -> hermitian N X -> factorisation ps N ->
  exists m' r, Outcome (@rfft_run (fl A bd) b N k x y) m m' /\ holds m' y N (fun j => rc (r j)) /\
    within N (error_bound A ps) (floor A N) (fun j => rc (r j)) (transform k N X).
Proof.
  intros A bd b N k x y m X ps HN Hk Hh Hx Hy Hd Ha HX HH Hp.
  destruct (rfft_call_ok b N k x y m _ HN Hh Hx Hy Hd Ha HX) as (m' & H1 & H2 & _). unfold rfft_res in H2. rewrite Hk in H2.
  pose proof (rfft_G_within A bd N k ps X HN Hk HH Hp) as G. set (Y := @rfft_G (fl A bd) N k X) in *.
  assert (EY : forall j, Y j = rc (Re (Y j))).
  { intros j. unfold Y, rfft_G. rewrite ri_out_F. unfold ri_out, rval. reflexivity. }
  exists m', (fun j => Re (Y j)). split; [exact H1|]. split.
  - intros j Hj. rewrite <- EY. apply H2. auto.
  - unfold within in *. rewrite (nrm_ext N _ (fun i => @csub ROps (Y i) (transform k N X i))); [exact G|]. intros i Hi. rewrite <- EY. reflexivity.
Qed.
Print Assumptions C37_real_inverse_accuracy.

(** C38: forward from x to y, then the matching inverse from y to z *)
Theorem C38_real_round_trip_accuracy : forall k1 k2 A bd b N x y z (m : mem (@C (fl A bd))) v ps,
  In (k1, k2) [(fwd, inv); (fwd, inv0); (fwdn, inv); (fwdn, inv0); (fwd0, invn); (fwdu, invu)] ->
  real_length N -> rfft_history b (Some N) m ->
  ~ fft_own b (fst x) -> ~ fft_own b (fst y) -> ~ fft_own b (fst z) ->
  disjR x N y N -> disjR y N z N -> allocd m (inR y N) ->
  holds m x N (fun j => rc (v j)) -> factorisation ps N ->
  exists m1, Outcome (@rfft_run (fl A bd) b N k1 x y) m m1 /\
    forall m2, (forall l, fft_own b (fst l) \/ inR y N l -> m2 l = m1 l) -> allocd m2 (inR z N) ->
    exists m3 Z, Outcome (@rfft_run (fl A bd) b N k2 y z) m2 m3 /\ holds m3 z N Z /\
      within N ((1 + error_bound A ps) * (1 + error_bound A ps) - 1) (sqrt (INR N) * floor A N) Z (fun j => rc (v j)).
Proof.
  intros k1 k2 A bd b N x y z m v ps Hk HN Hh Hx Hy Hz Hd1 Hd2 Ha HX Hp.
  assert (Hk1 : meth_inv k1 = false /\ meth_inv k2 = true /\ undoes k1 k2 = true).
  { repeat (destruct Hk as [[= <- <-]|Hk]; [split; [reflexivity|split; reflexivity]|]). destruct Hk. }
  destruct Hk1 as (Hk1 & Hk2 & Hu).
  destruct (rfft_call_ok b N k1 x y m _ HN Hh Hx Hy Hd1 Ha HX) as (m1 & H1 & H2 & _ & H4 & _). unfold rfft_res in H2. rewrite Hk1 in H2.
  exists m1. split; [exact H1|]. intros m2 Hf Ha2. set (Y := @rfft_F (fl A bd) N k1 (fun j => rc (v j))) in *.
  destruct (rfft_call_ok b N k2 y z m2 Y HN) as (m3 & H5 & H6 & _); auto.
  - eapply h_other; [exact H4|]. auto.
  - intros i Hi. rewrite Hf by (right; apply inR_i; auto). apply H2. auto.
  - unfold rfft_res in H6. rewrite Hk2 in H6. exists m3, (@rfft_G (fl A bd) N k2 Y). split; [exact H5|]. split; [exact H6|].
    apply (round_trip_err N k1 k2 _ _ (fun j => rc (v j)) Y); [apply real_length_pos; auto|apply bound_pos|apply floor_pos|exact Hu| |].
    + apply rfft_F_within; auto.
    + apply rfft_G_within; auto. apply rfft_F_hermitian; auto.
Qed.
Print Assumptions C38_real_round_trip_accuracy.

(** the hypotheses are met (real_hypotheses_met in PropReal.v, factorisation_exists); N = 1024, binary64: relative error below 10^-12 *)
Theorem C37_example : forall bd b k x y (m : mem (@C (fl binary64 bd))) v,
  meth_inv k = false -> rfft_history b (Some 1024%nat) m ->
  ~ fft_own b (fst x) -> ~ fft_own b (fst y) -> disjR x 1024 y 1024 -> allocd m (inR y 1024) -> holds m x 1024 (fun j => rc (v j)) ->
  exists m' Y, Outcome (@rfft_run (fl binary64 bd) b 1024 k x y) m m' /\ holds m' y 1024 Y /\ within 1024 (/ 10 ^ 12) (floor binary64 1024) Y (transform k 1024 (fun j => rc (v j))).
Proof.
  intros bd b k x y m v Hk Hh Hx Hy Hd Ha HX.
  assert (HR : real_length 1024) by (apply (proj1 real_lengths_ok 10%nat); lia).
  destruct (C37_real_accuracy binary64 bd b 1024 k x y m v _ HR Hk Hh Hx Hy Hd Ha HX factorisation_1024) as (m' & Y & H1 & H2 & H3 & _).
  exists m', Y. split; [exact H1|]. split; [exact H2|]. unfold within in *. eapply Rle_trans; [exact H3|]. pose proof (nrm_pos 1024 (transform k 1024 (fun j => rc (v j)))). pose proof (floor_pos binary64 1024). apply Rmult_le_compat_r; [lra|]. exact bound_1024.
Qed.
Print Assumptions C37_example.
