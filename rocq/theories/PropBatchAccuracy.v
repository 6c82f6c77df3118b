(** * C63, floating point: the two-dimensional transform on IEEE doubles is accurate

    Rows with an object of length N, transposition by the client, columns with an object of length P, as in
    [PropBatch.C63_two_dimensions]; see PropIeee.v for the notation. *)

From Coq Require Import Reals ZArith List Arith Bool Lia Lra Psatz.
From Flocq Require Import Core.Core IEEE754.BinarySingleNaN.
From Verif Require Import PropMysqrt.
From Verif Require Import Scalar RealOps Spec DftFacts Norm Simd Round Mem MemFacts Omp Lanes Stage Object Engine ApiSpec FactorFacts
  ModelApi History ApiFacts ApiExact Footprint ComplexThms RoundMixed RoundApi PropAccuracy Param ParamKern ParamFft Ieee64 PropIeee Grade GradeFft PropOverflow
  PropConvAccuracy PropBatch PropStability.
Import ListNotations.
Local Open Scope R_scope.

(** root of the sum of the squared magnitudes of all elements of P rows and N columns *)
Definition fro (P N : nat) (A : nat -> nat -> CC) : R := sqrt (rsum P (fun r => rsum N (fun c => cnorm2 (A r c)))).

Lemma fro_nrm P N A : fro P N A = nrm P (fun r => rc (nrm N (A r))).
Proof.
  unfold fro, nrm at 1. f_equal. apply rsum_ext. intros r _. rewrite <- nrm_sq. unfold cnorm2, rc. cbn [fst snd]. ring.
Qed.
Lemma fro_T P N A : fro P N A = fro N P (fun c r => A r c).
Proof. unfold fro. f_equal. apply rsum_swap. Qed.
Lemma fro_pos P N A : 0 <= fro P N A.
Proof. apply sqrt_pos. Qed.
Lemma fro_ext P N A B : (forall r c, (r < P)%nat -> (c < N)%nat -> A r c = B r c) -> fro P N A = fro P N B.
Proof. intros H. unfold fro. f_equal. apply rsum_ext. intros r Hr. apply rsum_ext. intros c Hc. rewrite H by auto. reflexivity. Qed.
Lemma nrm_mono P u v : (forall r, (r < P)%nat -> 0 <= u r <= v r) -> nrm P (fun r => rc (u r)) <= nrm P (fun r => rc (v r)).
Proof.
  intros H. rewrite <- (Rmult_1_l (nrm P (fun r => rc (v r)))). apply nrm_rel; [lra|]. intros r Hr. specialize (H r Hr). rewrite !cabs_rc by lra. lra.
Qed.
Lemma fro_add P N A B : fro P N (fun r c => cadd (A r c) (B r c)) <= fro P N A + fro P N B.
Proof.
  rewrite !fro_nrm. eapply Rle_trans; [apply (nrm_mono P _ (fun r => nrm N (A r) + nrm N (B r)))|].
  - intros r _. split; [apply nrm_pos|apply nrm_tri].
  - eapply Rle_trans; [|apply nrm_tri]. apply Req_le, nrm_ext. intros r _. csimp; ring.
Qed.
Lemma fro_rows P N A B e f : 0 <= e -> 0 <= f -> (forall r, (r < P)%nat -> nrm N (vsub (A r) (B r)) <= e * (nrm N (B r) + f)) ->
  fro P N (fun r c => csub (A r c) (B r c)) <= e * (fro P N B + sqrt (INR P) * f).
Proof.
  intros He Hf H. rewrite !fro_nrm. eapply Rle_trans; [apply (nrm_mono P _ (fun r => e * (nrm N (B r) + f)))|].
  - intros r Hr. split; [apply nrm_pos|]. apply (H r Hr).
  - rewrite (nrm_ext P (fun r => rc (e * (nrm N (B r) + f))) (fun r => @cscal ROps e (cadd (rc (nrm N (B r))) (rc f)))) by (intros r _; csimp; ring).
    rewrite nrm_scal, Rabs_pos_eq by exact He. apply Rmult_le_compat_l; [exact He|]. eapply Rle_trans; [apply nrm_tri|]. rewrite nrm_const by exact Hf. lra.
Qed.
Lemma fro_gain P N A B g : 0 <= g -> (forall r, (r < P)%nat -> nrm N (A r) = g * nrm N (B r)) -> fro P N A = g * fro P N B.
Proof.
  intros Hg H. rewrite !fro_nrm. rewrite (nrm_ext P _ (fun r => @cscal ROps g (rc (nrm N (B r))))).
  - rewrite nrm_scal, Rabs_pos_eq by exact Hg. reflexivity.
  - intros r Hr. rewrite (H r Hr). csimp; ring.
Qed.

Lemma two_dim_err k P N e e' f f' (X Y Z : nat -> nat -> CC) : (0 < N)%nat -> (0 < P)%nat -> 0 <= e -> 0 <= e' -> 0 <= f -> 0 <= f' ->
  (forall r, (r < P)%nat -> within N e f (Y r) (transform k N (X r))) ->
  (forall c, (c < N)%nat -> within P e' f' (fun r => Z r c) (transform k P (fun r => Y r c))) ->
  let T := fun r c => transform k P (fun r' => transform k N (X r') c) r in
  fro P N (fun r c => csub (Z r c) (T r c)) <=
    ((1 + e) * (1 + e') - 1) * fro P N T + (1 + e') * e * gain k P * sqrt (INR P) * f + e' * sqrt (INR N) * f'.
Proof.
  intros HN HP He He' Hf Hf' HY HZ T.
  set (T1 := fun r => transform k N (X r)). set (T2Y := fun r c => transform k P (fun r' => Y r' c) r).
  assert (Hg : 0 <= gain k P) by (rewrite <- gain_ok by exact HP; apply Rmult_le_pos; [|apply sqrt_pos]; pose proof (lt_0_INR P HP) as Q; pose proof (sqrt_lt_R0 _ Q);
    destruct (meth_scaling k); cbn [factor]; [lra|left; apply Rinv_0_lt_compat; lra|left; apply Rinv_0_lt_compat; lra]).
  assert (E1 : fro P N (fun r c => csub (Y r c) (T1 r c)) <= e * (fro P N T1 + sqrt (INR P) * f)) by (apply fro_rows; auto).
  assert (E2 : fro P N (fun r c => csub (Z r c) (T2Y r c)) <= e' * (fro P N T2Y + sqrt (INR N) * f')).
  { rewrite (fro_T P N (fun r c => csub (Z r c) (T2Y r c))), (fro_T P N T2Y). apply (fro_rows N P (fun c r => Z r c) (fun c r => T2Y r c)); auto. }
  assert (E3 : fro P N (fun r c => csub (T2Y r c) (T r c)) = gain k P * fro P N (fun r c => csub (Y r c) (T1 r c))).
  { rewrite (fro_T P N (fun r c => csub (T2Y r c) (T r c))), (fro_T P N (fun r c => csub (Y r c) (T1 r c))). apply fro_gain; [exact Hg|]. intros c Hc.
    rewrite <- gain_ok, <- nrm_transform by exact HP. apply nrm_ext. intros r _. apply transform_sub. }
  assert (E4 : fro P N T = gain k P * fro P N T1).
  { rewrite (fro_T P N T), (fro_T P N T1). apply fro_gain; [exact Hg|]. intros c Hc. rewrite <- gain_ok, <- nrm_transform by exact HP. reflexivity. }
  assert (E5 : fro P N T2Y <= fro P N T + fro P N (fun r c => csub (T2Y r c) (T r c))).
  { eapply Rle_trans; [|apply fro_add]. apply Req_le, fro_ext. intros r c _ _. generalize (T2Y r c), (T r c). intros p q. csimp; ring. }
  assert (E6 : fro P N (fun r c => csub (Z r c) (T r c)) <= fro P N (fun r c => csub (Z r c) (T2Y r c)) + fro P N (fun r c => csub (T2Y r c) (T r c))).
  { eapply Rle_trans; [|apply fro_add]. apply Req_le, fro_ext. intros r c _ _. generalize (Z r c), (T2Y r c), (T r c). intros p q w. csimp; ring. }
  assert (E7 : fro P N (fun r c => csub (T2Y r c) (T r c)) <= e * fro P N T + gain k P * e * (sqrt (INR P) * f)).
  { rewrite E3, E4. eapply Rle_trans; [apply Rmult_le_compat_l; [exact Hg|exact E1]|]. apply Req_le. ring. }
  assert (E8 : e' * (fro P N T2Y + sqrt (INR N) * f') <= e' * (fro P N T + (e * fro P N T + gain k P * e * (sqrt (INR P) * f)) + sqrt (INR N) * f')) by (apply Rmult_le_compat_l; lra).
  lra.
Qed.

Lemma within_ext N e f Y T T' : (forall i, (i < N)%nat -> T i = T' i) -> within N e f Y T -> within N e f Y T'.
Proof.
  intros H. unfold within. rewrite (nrm_ext N T T') by exact H. intros Q. eapply Rle_trans; [|exact Q]. apply Req_le, nrm_ext.
  intros i Hi. cbv beta. rewrite (H i Hi). reflexivity.
Qed.
(** ** on IEEE doubles: rows, transposition by the client, columns; the deviation from the two-dimensional DFT of the doubles stored,
    in Frobenius norm *)
Theorem C63_two_dimensions_accuracy : forall dc ds lam, libm dc ds lam -> forall bd k b b' N P x y (m : mem (@C (ieee dc ds bd))) X ps qs,
  valid_length N -> valid_length P -> factorisation ps N -> factorisation qs P ->
  fft_history b (Some N) m -> fft_history b' (Some P) m ->
  one_or_two b N b' P -> ~ fft_own b (fst x) -> ~ fft_own b' (fst x) -> ~ fft_own b' (fst y) ->
  holds m x (P * N) (fun i => X (i / N)%nat (i mod N)%nat) ->
  exists m1 Y, @batch (ieee dc ds bd) b N k x P m m1 /\ (forall r c, (r < P)%nat -> (c < N)%nat -> m1 (x +! (r * N + c)) = Val (Y r c)) /\
    forall m2, (forall l, fft_own b' (fst l) -> m2 l = m1 l) -> (forall r c, (r < P)%nat -> (c < N)%nat -> m2 (y +! (c * P + r)) = Val (Y r c)) ->
    exists m3 Z, @batch (ieee dc ds bd) b' P k y N m2 m3 /\ (forall r c, (r < P)%nat -> (c < N)%nat -> m3 (y +! (c * P + r)) = Val (Z r c)) /\
      (* the inputs leave room for the growth: nothing overflows *)
      (forall e, lam <= 1 -> (forall r c, (r < P)%nat -> (c < N)%nat -> bounded e (X r c)) -> (e + 10 * Nat.log2 N + 10 * Nat.log2 P <= 1023)%nat ->
         forall r c, (r < P)%nat -> (c < N)%nat -> finite_c (Y r c) /\ finite_c (Z r c)) /\
      ((forall r c, (r < P)%nat -> (c < N)%nat -> finite_c (Y r c) /\ finite_c (Z r c)) ->
       let exact := fun r c => @cscal ROps (factor (meth_scaling k) P * factor (meth_scaling k) N) (dft2 (meth_inv k) P N (fun r' c' => val (X r' c')) r c) in
       fro P N (fun r c => csub (val (Z r c)) (exact r c)) <=
         ((1 + bound64 lam ps) * (1 + bound64 lam qs) - 1) * fro P N exact
         + (1 + bound64 lam qs) * bound64 lam ps * gain k P * sqrt (INR P) * floor64 N + bound64 lam qs * sqrt (INR N) * floor64 P).
Proof.
  intros dc ds lam L bd k b b' N P x y m X ps qs HN HP Hps Hqs Hh Hh' Hown Hx Hx' Hy' HX.
  assert (HNp : (0 < N)%nat) by (unfold valid_length in HN; lia). assert (HPp : (0 < P)%nat) by (unfold valid_length in HP; lia).
  assert (W : forall n l (V : nat -> dcomplex), valid_length n -> factorisation l n ->
    accurate n (bound64 lam l) (floor64 n) (@fft0_F (ieee dc ds bd) n k V) (transform k n (fun i => val (V i)))).
  { intros n l V Hn Hl. eapply accurate_VR; [apply (fft0_F_p (ieee_sim dc ds lam L bd) n k V _ Hn (VR_val dc ds lam L bd V))|].
    apply (fft_within (real64 dc ds lam L)); auto. }
  destruct (batch_any (ieee dc ds bd) b N k x P m _ HN Hh Hx HX) as (m1 & B1 & R1 & F1 & H1).
  set (Xr := fun r => fun i => X ((r * N + i) / N)%nat ((r * N + i) mod N)%nat) in *.
  set (Y := fun r c => @fft0_F (ieee dc ds bd) N k (Xr r) c).
  exists m1, Y. split; [exact B1|]. split; [intros r c Hr Hc; rewrite <- padd_padd; apply (R1 r Hr c Hc)|].
  intros m2 Hf HY.
  assert (Hm2 : fft_history b' (Some P) m2).
  { destruct Hown as [[<- <-]|Hown]; [eapply h_other; [exact H1|exact Hf]|].
    eapply h_other; [exact Hh'|]. intros l Hl. rewrite Hf by exact Hl. apply F1; [|intros Q; exact (Hown _ (conj Q Hl))].
    intros (j & _ & ->). apply Hx'. exact Hl. }
  destruct (batch_any (ieee dc ds bd) b' P k y N m2 (fun i => Y (i mod P)%nat (i / P)%nat) HP Hm2 Hy') as (m3 & B3 & R3 & _).
  { intros i Hi. pose proof (Nat.div_mod i P ltac:(lia)) as E. rewrite E at 1. rewrite (Nat.mul_comm P). apply HY; [apply Nat.mod_upper_bound; lia|].
    apply Nat.div_lt_upper_bound; lia. }
  set (Yc := fun c => fun i => Y ((c * P + i) mod P)%nat ((c * P + i) / P)%nat) in *.
  set (Z := fun r c => @fft0_F (ieee dc ds bd) P k (Yc c) r).
  exists m3, Z. split; [exact B3|]. split; [intros r c Hr Hc; rewrite <- padd_padd; apply (R3 c Hc r Hr)|].
  split.
  { intros e Hl HB He.
    assert (HBY : forall r c, (r < P)%nat -> (c < N)%nat -> bounded (e + 10 * Nat.log2 N) (Y r c)).
    { intros r c Hr Hc. revert c Hc. apply (GV_bounded dc ds bd); [apply (fft0_F_G dc ds lam L Hl); [exact HN|apply bounded_GV]|lia].
      intros i Hi. unfold Xr. rewrite (Nat.add_comm (r * N)), Nat.div_add, Nat.div_small, Nat.mod_add, Nat.mod_small by lia. cbn [Nat.add]. apply HB; assumption. }
    intros r c Hr Hc. split; [eapply bounded_fin, HBY; assumption|].
    apply (bounded_fin (e + 10 * Nat.log2 N + 10 * Nat.log2 P)). revert r Hr. apply (GV_bounded dc ds bd); [apply (fft0_F_G dc ds lam L Hl); [exact HP|apply bounded_GV]|lia].
    intros i Hi. unfold Yc. rewrite (Nat.add_comm (c * P)), Nat.mod_add, Nat.mod_small, Nat.div_add, Nat.div_small by lia. cbn [Nat.add]. apply HBY; assumption. }
  intros Hfin exact.
  set (T := fun r c => transform k P (fun r' => transform k N (fun i => val (X r' i)) c) r).
  assert (ET : forall r c, T r c = exact r c) by (intros r c; apply dft2_transform).
  rewrite (fro_ext P N _ (fun r c => csub (val (Z r c)) (T r c))) by (intros r c _ _; rewrite ET; reflexivity).
  rewrite (fro_ext P N exact T) by (intros r c _ _; symmetry; apply ET).
  apply (two_dim_err k P N (bound64 lam ps) (bound64 lam qs) (floor64 N) (floor64 P) (fun r i => val (X r i)) (fun r c => val (Y r c)) (fun r c => val (Z r c))); auto.
  - rewrite <- (bound_eq dc ds lam L). apply bound_pos.
  - rewrite <- (bound_eq dc ds lam L). apply bound_pos.
  - rewrite <- (floor_eq dc ds lam L). apply floor_pos.
  - rewrite <- (floor_eq dc ds lam L). apply floor_pos.
  - intros r Hr. destruct (W N ps (Xr r) HN Hps) as [_ A].
    apply (within_ext N _ _ _ (transform k N (fun i => val (Xr r i)))).
    { intros c _. apply transform_ext. intros i Hi. unfold Xr. rewrite (Nat.add_comm (r * N)), Nat.div_add, Nat.div_small, Nat.mod_add, Nat.mod_small by lia. reflexivity. }
    apply A. intros i Hi. apply (Hfin r i Hr Hi).
  - intros c Hc. destruct (W P qs (Yc c) HP Hqs) as [_ A].
    apply (within_ext P _ _ _ (transform k P (fun i => val (Yc c i)))).
    { intros r _. apply transform_ext. intros i Hi. unfold Yc. rewrite (Nat.add_comm (c * P)), Nat.mod_add, Nat.mod_small, Nat.div_add, Nat.div_small by lia. reflexivity. }
    apply A. intros i Hi. apply (Hfin i c Hi Hc).
Qed.
Print Assumptions C63_two_dimensions_accuracy.

(** ** The hypotheses are met: 1024 rows and 1024 columns of inputs up to 2^800, correctly rounded cos and sin, any build: nothing
    overflows, and the error is below 3 * 10^-12 of the norm of the exact result, plus an underflow term *)
Lemma C63_example_objects (Op : Ops) b x : x = ((b + 8)%nat, 0%nat) -> forall X : nat -> C, exists m : mem C,
  fft_history b (Some 1024%nat) m /\ fft_history (b + 4) (Some 1024%nat) m /\ holds m x (1024 * 1024) X.
Proof.
  intros -> X.
  assert (Hx : ~ fft_own b (b + 8)) by (unfold fft_own; lia). assert (Hx' : ~ fft_own (b + 4) (b + 8)) by (unfold fft_own; lia).
  destruct (PropComplex.complex_hypotheses_met Op b 1024 ((b + 8)%nat, 0%nat) X Hx) as (m1 & H1 & _).
  destruct (PropComplex.complex_hypotheses_met Op (b + 4) 1024 ((b + 8)%nat, 0%nat) X Hx') as (m2 & H2 & _).
  exists (fun l : loc => if (fst l <=? b + 3)%nat then m1 l else if (fst l <=? b + 7)%nat then m2 l else Val (X (snd l))).
  split; [eapply h_other; [exact H1|]|split; [eapply h_other; [exact H2|]|]].
  - intros l Hl. unfold fft_own in Hl. rewrite (proj2 (Nat.leb_le _ _)) by lia. reflexivity.
  - intros l Hl. unfold fft_own in Hl. rewrite (proj2 (Nat.leb_gt _ _)) by lia. rewrite (proj2 (Nat.leb_le _ _)) by lia. reflexivity.
  - intros i Hi. unfold padd. cbn [fst snd]. rewrite !(proj2 (Nat.leb_gt _ _)) by lia. reflexivity.
Qed.
Example C63_accuracy_example : forall bd k b (X : nat -> nat -> dcomplex), (forall r c, (r < 1024)%nat -> (c < 1024)%nat -> bounded 800 (X r c)) ->
  let Op := ieee (ideal cos) (ideal sin) bd in let x := ((b + 8)%nat, 0%nat) in let y := ((b + 9)%nat, 0%nat) in
  exists (m : mem (@C Op)) m1 Y, fft_history b (Some 1024%nat) m /\ fft_history (b + 4) (Some 1024%nat) m /\
    holds m x (1024 * 1024) (fun i => X (i / 1024)%nat (i mod 1024)%nat) /\
    @batch Op b 1024 k x 1024 m m1 /\ (forall r c, (r < 1024)%nat -> (c < 1024)%nat -> m1 (x +! (r * 1024 + c)) = Val (Y r c)) /\
    forall m2, (forall l, fft_own (b + 4) (fst l) -> m2 l = m1 l) -> (forall r c, (r < 1024)%nat -> (c < 1024)%nat -> m2 (y +! (c * 1024 + r)) = Val (Y r c)) ->
    exists m3 Z, @batch Op (b + 4) 1024 k y 1024 m2 m3 /\ (forall r c, (r < 1024)%nat -> (c < 1024)%nat -> m3 (y +! (c * 1024 + r)) = Val (Z r c)) /\
      let exact := fun r c => @cscal ROps (factor (meth_scaling k) 1024 * factor (meth_scaling k) 1024) (dft2 (meth_inv k) 1024 1024 (fun r' c' => val (X r' c')) r c) in
      fro 1024 1024 (fun r c => csub (val (Z r c)) (exact r c)) <= 3 / 10 ^ 12 * (fro 1024 1024 exact + (gain k 1024 + 1) * sqrt (INR 1024) * floor64 1024).
Proof.
  intros bd k b X HB Op x y.
  destruct (C63_example_objects Op b x eq_refl (fun i => X (i / 1024)%nat (i mod 1024)%nat)) as (m & H1 & H2 & H3).
  assert (HV : valid_length 1024) by (apply (proj1 PropComplex.valid_lengths 10%nat); lia).
  destruct (C63_two_dimensions_accuracy _ _ _ libm_ideal bd k b (b + 4) 1024 1024 x y m X (repeat 2%nat 10) (repeat 2%nat 10) HV HV
    factorisation_1024 factorisation_1024 H1 H2) as (m1 & Y & B1 & R1 & K); [right; unfold fft_own; intros d; lia|subst x; unfold fft_own; cbn [fst]; lia|
    subst x; unfold fft_own; cbn [fst]; lia|subst y; unfold fft_own; cbn [fst]; lia|exact H3|].
  exists m, m1, Y. split; [exact H1|]. split; [exact H2|]. split; [exact H3|]. split; [exact B1|]. split; [exact R1|].
  intros m2 Hf HY. destruct (K m2 Hf HY) as (m3 & Z & B3 & R3 & Hfin & Herr). exists m3, Z. split; [exact B3|]. split; [exact R3|].
  assert (Hu : u64 <= 1) by (rewrite u64_val; lra). assert (El : Nat.log2 1024 = 10%nat) by reflexivity.
  specialize (Herr (Hfin 800%nat Hu HB ltac:(rewrite El; lia))). intros exact. cbv zeta in Herr. fold exact in Herr.
  eapply Rle_trans; [exact Herr|].
  pose proof bound64_1024 as HE. pose proof (bound_pos (real64 _ _ _ libm_ideal) (repeat 2%nat 10)) as HE0. rewrite bound_eq in HE0.
  pose proof (floor_pos (real64 _ _ _ libm_ideal) 1024) as Hfl. rewrite floor_eq in Hfl.
  pose proof (fro_pos 1024 1024 exact) as HF. pose proof (sqrt_pos (INR 1024)) as HS.
  assert (Hg : 0 <= gain k 1024) by (rewrite <- gain_ok by lia; apply Rmult_le_pos; [|exact HS]; assert (Q : 0 < INR 1024) by (apply lt_0_INR; lia);
    pose proof (sqrt_lt_R0 _ Q); destruct (meth_scaling k); cbn [factor]; [lra|left; apply Rinv_0_lt_compat; lra|left; apply Rinv_0_lt_compat; lra]).
  revert HE HE0 Hfl HF HS Hg. generalize (bound64 u64 (repeat 2%nat 10)), (floor64 1024), (fro 1024 1024 exact), (sqrt (INR 1024)), (gain k 1024).
  intros E f F S g HE HE0 Hfl HF HS Hg.
  assert (HE3 : E <= / 10 ^ 12) by lra. set (d := / 10 ^ 12) in *. assert (Hd : 0 < d <= / 2) by (subst d; split; [apply Rinv_0_lt_compat; lra|lra]).
  assert (HgSf : 0 <= g * S * f) by (repeat apply Rmult_le_pos; assumption). assert (HSf : 0 <= S * f) by (apply Rmult_le_pos; assumption).
  replace (3 / 10 ^ 12) with (3 * d) by (unfold d, Rdiv; ring).
  assert (E1 : (1 + E) * (1 + E) - 1 <= 3 * d) by nra. assert (E2 : (1 + E) * E <= 3 * d) by nra.
  assert (Q1 : ((1 + E) * (1 + E) - 1) * F <= 3 * d * F) by (apply Rmult_le_compat_r; assumption).
  assert (Q2 : (1 + E) * E * (g * S * f) <= 3 * d * (g * S * f)) by (apply Rmult_le_compat_r; assumption).
  assert (Q3 : E * (S * f) <= 3 * d * (S * f)) by (apply Rmult_le_compat_r; [assumption|lra]).
  lra.
Qed.
