(** * Lemmas behind the property theorems of RealDCT *)

From Coq Require Import Reals List Arith ZArith Bool Lia Lra.
From Verif Require Import Scalar RealOps Spec DftFacts Mem MemFacts Omp Lanes Stage Object Engine ApiSpec FactorFacts
  ModelApi History ApiFacts ApiExact Footprint ComplexThms ModelReal RealFacts RealRun RealExact GObj RealObj RealSpec RealThms DctRun DctExact.
Import ListNotations.

Lemma dct_exact b N k x (m : mem CC) v : dct_length N -> dct_history b (Some N) m -> ~ dct_own b (fst x) ->
  holds m x N (fun j => rc (v j)) ->
  exists m', Outcome (dct_run b N k x) m m' /\ holds m' x N (fun i => rc (dct_spec k N v i)) /\
    (forall l, ~ inR x N l -> ~ dct_own b (fst l) -> m' l = m l) /\ dct_history b (Some N) m'.
Proof.
  intros HN Hh Hx HX. destruct (dct_call_ok b N k x m _ HN Hh Hx HX) as (m' & H1 & H2 & H3 & _ & H5 & _).
  exists m'. split; [exact H1|]. split; [|auto]. intros i Hi. rewrite (H2 i Hi). f_equal. rewrite dct_res_exact by auto. reflexivity.
Qed.

Lemma DCT3_scal N a v i : (DCT3 N (fun j => a * v j) i = a * DCT3 N v i)%R.
Proof.
  unfold DCT3. rewrite (rsum_ext _ _ (fun k => (a * (v (S k) * cos (PI * INR (S k) * (2 * INR i + 1) / (2 * INR N))))%R)) by (intros; ring).
  rewrite rsum_mul. ring.
Qed.

Lemma dct_spec_ext k N v w i : (0 < N)%nat -> (forall j, (j < N)%nat -> v j = w j) -> dct_spec k N v i = dct_spec k N w i.
Proof.
  intros HN H.
  assert (E2 : DCT2 N v i = DCT2 N w i) by (unfold DCT2; apply rsum_ext; intros j Hj; rewrite H by auto; reflexivity).
  assert (E3 : DCT3 N v i = DCT3 N w i).
  { unfold DCT3. f_equal; [apply H; auto|]. f_equal. apply rsum_ext. intros j Hj. rewrite H by lia. reflexivity. }
  destruct k; cbn [dct_spec]; rewrite ?E2, ?E3; reflexivity.
Qed.

Lemma dct_spec_inv_fwd k1 k2 N v i : In (k1, k2) [(Dfwd, Dinv); (Dfwd, Dinv0); (Dfwdn, Dinv); (Dfwdn, Dinv0); (Dfwd0, Dinvn);
    (Dinv, Dfwd); (Dinv, Dfwdn); (Dinv0, Dfwd); (Dinv0, Dfwdn); (Dinvn, Dfwd0)] ->
  dct_length N -> (i < N)%nat -> dct_spec k2 N (dct_spec k1 N v) i = v i.
Proof.
  intros Hk HN Hi. assert (HN0 : (0 < N)%nat) by lia.
  assert (K : forall k1 k2, dct_res N k2 (dct_res N k1 (fun j => rc (v j))) i = rc (v i) -> dct_spec k2 N (dct_spec k1 N v) i = v i).
  { clear k1 k2 Hk. intros k1 k2 E. rewrite dct_res_exact in E by auto. apply (f_equal fst) in E. cbn [fst rc] in E. rewrite <- E.
    apply dct_spec_ext; auto. intros j Hj. unfold rv. rewrite dct_res_exact by auto. reflexivity. }
  apply K.
  repeat (destruct Hk as [[= <- <-]|Hk];
    [unfold dct_res; cbn [dmeth_inv dct_kind]; first [apply dct_inv_fwd | apply dct_fwd_inv]; auto|]). destruct Hk.
Qed.

Lemma dct_round_trip : forall k1 k2 b N x (m : mem CC) v,
  In (k1, k2) [(Dfwd, Dinv); (Dfwd, Dinv0); (Dfwdn, Dinv); (Dfwdn, Dinv0); (Dfwd0, Dinvn);
    (Dinv, Dfwd); (Dinv, Dfwdn); (Dinv0, Dfwd); (Dinv0, Dfwdn); (Dinvn, Dfwd0)] ->
  dct_length N -> dct_history b (Some N) m -> ~ dct_own b (fst x) -> holds m x N (fun j => rc (v j)) ->
  exists m1, Outcome (dct_run b N k1 x) m m1 /\
    forall m2, (forall l, dct_own b (fst l) \/ inR x N l -> m2 l = m1 l) ->
    exists m3, Outcome (dct_run b N k2 x) m2 m3 /\ holds m3 x N (fun j => rc (v j)).
Proof.
  intros k1 k2 b N x m v Hk HN Hh Hx HX. destruct (dct_exact b N k1 x m v HN Hh Hx HX) as (m1 & H1 & H2 & _ & H4).
  exists m1. split; [exact H1|]. intros m2 Hf.
  destruct (dct_exact b N k2 x m2 (dct_spec k1 N v) HN) as (m3 & J1 & J2 & _); auto.
  - eapply h_other; [exact H4|]. auto.
  - intros i Hi. rewrite Hf by (right; apply inR_i; auto). apply H2. auto.
  - exists m3. split; [exact J1|]. intros i Hi. rewrite (J2 i Hi). do 2 f_equal. apply dct_spec_inv_fwd; auto.
Qed.

Lemma dct_spec_lin k N v w a c i : (dct_spec k N (fun j => a * v j + c * w j) i = a * dct_spec k N v i + c * dct_spec k N w i)%R.
Proof.
  assert (E2 : (DCT2 N (fun j => a * v j + c * w j) i = a * DCT2 N v i + c * DCT2 N w i)%R).
  { unfold DCT2. rewrite <- !rsum_mul, <- rsum_add. apply rsum_ext. intros; ring. }
  assert (E3 : (DCT3 N (fun j => a * v j + c * w j) i = a * DCT3 N v i + c * DCT3 N w i)%R).
  { unfold DCT3. rewrite (rsum_ext _ (fun k => ((a * v (S k) + c * w (S k)) * _)%R)
      (fun k => (a * (v (S k) * cos (PI * INR (S k) * (2 * INR i + 1) / (2 * INR N))) + c * (w (S k) * cos (PI * INR (S k) * (2 * INR i + 1) / (2 * INR N))))%R)) by (intros; ring).
    rewrite rsum_add, !rsum_mul. ring. }
  destruct k; cbn [dct_spec]; rewrite ?E2, ?E3; unfold Rdiv; ring.
Qed.
Lemma dct_linear : forall k b N x (mX mY mZ : mem CC) v w (a c : R),
  dct_length N -> dct_history b (Some N) mX -> dct_history b (Some N) mY -> dct_history b (Some N) mZ -> ~ dct_own b (fst x) ->
  holds mX x N (fun i => rc (v i)) -> holds mY x N (fun i => rc (w i)) -> holds mZ x N (fun i => rc (a * v i + c * w i)%R) ->
  exists mX' mY' mZ' v' w', Outcome (dct_run b N k x) mX mX' /\ Outcome (dct_run b N k x) mY mY' /\ Outcome (dct_run b N k x) mZ mZ' /\
    holds mX' x N (fun i => rc (v' i)) /\ holds mY' x N (fun i => rc (w' i)) /\ holds mZ' x N (fun i => rc (a * v' i + c * w' i)%R).
Proof.
  intros k b N x mX mY mZ v w a c HN H1 H2 H3 Hx B1 B2 B3.
  destruct (dct_exact b N k x mX _ HN H1 Hx B1) as (m1 & O1 & R1 & _).
  destruct (dct_exact b N k x mY _ HN H2 Hx B2) as (m2 & O2 & R2 & _).
  destruct (dct_exact b N k x mZ _ HN H3 Hx B3) as (m3 & O3 & R3 & _).
  exists m1, m2, m3, (dct_spec k N v), (dct_spec k N w). repeat (split; [assumption|]).
  intros i Hi. rewrite (R3 i Hi). do 2 f_equal. apply dct_spec_lin.
Qed.

Section Any.
Context {Op : Ops}.
Lemma dct_safety : forall b N k x (m : mem C) X,
  dct_length N -> dct_history b (Some N) m -> ~ dct_own b (fst x) -> holds m x N X ->
  (exists m', Outcome (dct_run b N k x) m m' /\ (forall l, ~ inR x N l -> ~ dct_own b (fst l) -> m' l = m l) /\
     (forall l, b <= fst l <= b + 4 -> m' l = m l)) /\
  accesses_only (dct_run b N k x) m (fun l => inR x N l \/ dct_own b (fst l)).
Proof.
  intros b N k x m X HN Hh Hx HX. destruct (dct_call_ok b N k x m _ HN Hh Hx HX) as (m' & H1 & H2 & H3 & H4 & H5 & H6).
  split; [exists m'; auto|exact H6].
Qed.
Lemma dct_setup_safety : forall b N o (m : mem C), (Z.of_nat N < 2 ^ 30)%Z -> dct_history b o m ->
  (exists m', Outcome (dct_setup b N) m m' /\ (forall l, ~ dct_own b (fst l) -> m' l = m l)) /\
  accesses_only (dct_setup b N) m (fun l => dct_own b (fst l)).
Proof.
  intros b N o m HN Hh. destruct (dct_setup_call b N o m) as (m' & H1 & H2 & _ & H4); auto.
  - unfold mul_ok, INT_MAX. apply Z.leb_le. change (Z.of_nat 2) with 2%Z. change (2 ^ 30)%Z with 1073741824%Z in HN. lia.
  - split; [exists m'; auto|exact H4].
Qed.
Lemma dct_deterministic : forall N k, dct_length N ->
  exists F : (nat -> C) -> nat -> C, forall b x (m : mem C) X,
    dct_history b (Some N) m -> ~ dct_own b (fst x) -> holds m x N X ->
    exists m', Outcome (dct_run b N k x) m m' /\ holds m' x N (F X).
Proof.
  intros N k HN. exists (dct_res N k). intros b x m X Hh Hx HX.
  destruct (dct_call_ok b N k x m _ HN Hh Hx HX) as (m' & H1 & H2 & _). exists m'. auto.
Qed.
Lemma dct_no_race : forall b N k x (m : mem C) X,
  dct_length N -> dct_history b (Some N) m -> ~ dct_own b (fst x) -> holds m x N X ->
  forall n T m1, call_reach (dct_run b N k x) m n T m1 -> forall i j, i < n -> j < n -> i <> j -> ~ racing (T i) (T j).
Proof.
  intros b N k x m X HN Hh Hx HX. destruct (dct_call_ok b N k x m _ HN Hh Hx HX) as (m' & [_ _ _ H _ _] & _). exact H.
Qed.
Lemma dct_inhabited : forall b N x X, dct_length N -> ~ dct_own b (fst x) ->
  exists m : mem C, dct_history b (Some N) m /\ holds m x N X.
Proof.
  intros b N x X HN Hx.
  destruct (dct_history_any b N (poke x N X (fun _ => Uninit)) HN) as (m & Hm & Hf). exists m. split; [exact Hm|].
  intros i Hi. rewrite Hf by auto. apply poke_holds. auto.
Qed.
End Any.
Lemma dct_lengths_ok : forall N, real_length N -> (Z.of_nat N < 2 ^ 30)%Z -> dct_length N.
Proof.
  intros N HN H. split; auto. unfold mul_ok, INT_MAX. apply Z.leb_le. change (Z.of_nat 2) with 2%Z. change (2 ^ 30)%Z with 1073741824%Z in H. lia.
Qed.
