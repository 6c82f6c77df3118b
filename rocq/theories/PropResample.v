(** * C65: objects of different lengths agree

    Zero padding, periodic repetition and decimation relate the transform of length N to that of length r*N. *)

From Coq Require Import Reals List Arith ZArith Bool Lia Lra.
From Verif Require Import Scalar RealOps Spec DftFacts Mem MemFacts Omp Lanes Stage Object Engine ApiSpec FactorFacts
  ModelApi History ApiFacts ApiExact Footprint ComplexThms PropComplex PropConvolution.
Import ListNotations.

(** ** the identities *)
Lemma DFT_pad inv N r (Y : nat -> CC) i : 0 < N -> 0 < r -> (forall j, N <= j < r * N -> Y j = (0, 0)%R) -> DFT inv (r * N) Y (r * i) = DFT inv N Y i.
Proof.
  intros HN Hr HY. unfold DFT. replace (r * N) with (N + (r - 1) * N) at 1 by nia. rewrite csum_app.
  rewrite (csum_ext ((r - 1) * N) _ (fun _ => (0, 0)%R)).
  - rewrite csum_0. rewrite (csum_ext N _ (fun j => cmul (Y j) (W inv N (j * i)))).
    + generalize (csum N (fun j => cmul (Y j) (W inv N (j * i)))). intros z. csimp; ring.
    + intros j _. replace (j * (r * i)) with (r * (j * i)) by lia. rewrite W_scale by auto. reflexivity.
  - intros j Hj. rewrite HY by nia. csimp; ring.
Qed.

Lemma csum_blocks r N f : csum (r * N) f = csum r (fun t => csum N (fun j => f (t * N + j))).
Proof.
  induction r as [|r IH]; [reflexivity|]. cbn [csum]. rewrite <- IH. replace (S r * N) with (r * N + N) by lia. apply csum_app.
Qed.
Lemma DFT_repeat inv N r (X : nat -> CC) i : 0 < N -> 0 < r ->
  DFT inv (r * N) (fun j => X (j mod N)) i = if i mod r =? 0 then cmul (rc (INR r)) (DFT inv N X (i / r)) else (0, 0)%R.
Proof.
  intros HN Hr. unfold DFT. rewrite csum_blocks.
  rewrite (csum_ext r _ (fun t => cmul (W inv r (t * (i mod r))) (csum N (fun j => cmul (X j) (W inv (r * N) (j * i)))))).
  2:{ intros t Ht. rewrite <- csum_mul_l. apply csum_ext. intros j Hj. rewrite (Nat.add_comm (t * N)), Nat.mod_add, Nat.mod_small by lia.
    rewrite Nat.mul_add_distr_r, W_add. replace (t * N * i) with (N * (t * i)) by lia. rewrite (Nat.mul_comm r N), W_scale by auto.
    rewrite (W_cong inv r (t * (i mod r)) (t * i)) by (auto; rewrite Nat.mul_mod_idemp_r by lia; reflexivity). ring. }
  rewrite csum_mul_r. destruct (Nat.eqb_spec (i mod r) 0) as [E|E].
  - rewrite E. rewrite (csum_ext r _ (fun _ => @c1 ROps)) by (intros t _; rewrite Nat.mul_0_r; apply W_0). rewrite csum_const.
    rewrite (csum_ext N (fun j => cmul (X j) (W inv (r * N) (j * i))) (fun j => cmul (X j) (W inv N (j * (i / r))))).
    + generalize (csum N (fun j => cmul (X j) (W inv N (j * (i / r))))), (INR r). intros z q. csimp; ring.
    + intros j _. f_equal. rewrite <- (W_scale inv r N) by auto. f_equal. rewrite (Nat.div_mod i r) at 1 by lia. rewrite E. lia.
  - rewrite W_sum_zero by (pose proof (Nat.mod_upper_bound i r); lia). generalize (csum N (fun j => cmul (X j) (W inv (r * N) (j * i)))). intros z. csimp; ring.
Qed.

Lemma DFT_decimate inv N r (Y : nat -> CC) i : 0 < N -> 0 < r ->
  cmul (rc (INR r)) (DFT inv N (fun j => Y (r * j)) i) = csum r (fun t => DFT inv (r * N) Y (i + t * N)).
Proof.
  intros HN Hr. unfold DFT. rewrite csum_swap.
  rewrite (csum_ext (r * N) _ (fun j => cmul (cmul (Y j) (W inv (r * N) (j * i))) (csum r (fun t => W inv r (t * (j mod r)))))).
  2:{ intros j Hj. rewrite <- csum_mul_l. apply csum_ext. intros t Ht. rewrite Nat.mul_add_distr_l, W_add. replace (j * (t * N)) with (N * (t * j)) by lia.
    rewrite (Nat.mul_comm r N) at 2. rewrite W_scale by auto. rewrite (W_cong inv r (t * (j mod r)) (t * j)) by (auto; rewrite Nat.mul_mod_idemp_r by lia; reflexivity). ring. }
  rewrite (Nat.mul_comm r N), csum_blocks, <- csum_mul_l. apply csum_ext. intros j Hj.
  rewrite (csum_single r 0); [|lia|].
  - rewrite Nat.add_0_r, Nat.mod_mul by lia. rewrite (csum_ext r _ (fun _ => @c1 ROps)) by (intros t _; rewrite Nat.mul_0_r; apply W_0). rewrite csum_const.
    rewrite (Nat.mul_comm j r), (Nat.mul_comm N r). replace (r * j * i) with (r * (j * i)) by lia. rewrite W_scale by auto.
    generalize (Y (r * j)), (W inv N (j * i)), (INR r). intros z t q. csimp; ring.
  - intros t Ht Hne. rewrite (Nat.add_comm (j * r)), Nat.mod_add, Nat.mod_small by lia. rewrite W_sum_zero by lia.
    generalize (cmul (Y (t + j * r)) (W inv (N * r) ((t + j * r) * i))). intros z. csimp; ring.
Qed.

Definition unscaled (k : meth) : Prop := In k [fwd0; inv; inv0].
Lemma unscaled_transform k N X i : unscaled k -> transform k N X i = DFT (meth_inv k) N X i.
Proof. intros H. unfold transform. replace (meth_scaling k) with Unscaled; [apply SixExact.cscal_1|]. destruct H as [<- | [<- | [<- | []]]]; reflexivity. Qed.

(** ** an array of N elements transformed as it is, and padded with zeros to r*N elements: the coefficients of the first are every r-th of
    the second *)
Theorem C65_zero_padding : forall k b b' N r x x' (m m' : mem CC) (X Y : nat -> CC),
  unscaled k -> 0 < r -> valid_length N -> valid_length (r * N) -> fft_history b (Some N) m -> fft_history b' (Some (r * N)) m' ->
  ~ fft_own b (fst x) -> ~ fft_own b' (fst x') -> holds m x N X -> holds m' x' (r * N) Y ->
  (forall j, j < N -> Y j = X j) -> (forall j, N <= j < r * N -> Y j = (0, 0)%R) ->
  exists m1 m2 U V, Outcome (fft_run b N k x) m m1 /\ Outcome (fft_run b' (r * N) k x') m' m2 /\ holds m1 x N U /\ holds m2 x' (r * N) V /\
    forall i, i < N -> V (r * i) = U i.
Proof.
  intros k b b' N r x x' m m' X Y Hk Hr HN HL Hh Hh' Hx Hx' HX HY E Z. assert (HNp : 0 < N) by (unfold valid_length in HN; lia).
  destruct (fft_call b N k x m X HN Hh Hx HX) as (m1 & O1 & R1 & _). destruct (fft_call b' (r * N) k x' m' Y HL Hh' Hx' HY) as (m2 & O2 & R2 & _).
  exists m1, m2, (transform k N X), (transform k (r * N) Y). split; [exact O1|]. split; [exact O2|]. split; [exact R1|]. split; [exact R2|].
  intros i Hi. rewrite !unscaled_transform, DFT_pad by auto. apply DFT_ext. exact E.
Qed.
Print Assumptions C65_zero_padding.

(** ** an array repeated r times: r times the coefficients of one period at the multiples of r, zero elsewhere *)
Theorem C65_repetition : forall k b b' N r x x' (m m' : mem CC) (X : nat -> CC),
  unscaled k -> 0 < r -> valid_length N -> valid_length (r * N) -> fft_history b (Some N) m -> fft_history b' (Some (r * N)) m' ->
  ~ fft_own b (fst x) -> ~ fft_own b' (fst x') -> holds m x N X -> holds m' x' (r * N) (fun j => X (j mod N)) ->
  exists m1 m2 U V, Outcome (fft_run b N k x) m m1 /\ Outcome (fft_run b' (r * N) k x') m' m2 /\ holds m1 x N U /\ holds m2 x' (r * N) V /\
    (forall i, i < N -> V (r * i) = cmul (rc (INR r)) (U i)) /\ (forall i, i < r * N -> i mod r <> 0 -> V i = (0, 0)%R).
Proof.
  intros k b b' N r x x' m m' X Hk Hr HN HL Hh Hh' Hx Hx' HX HY. assert (HNp : 0 < N) by (unfold valid_length in HN; lia).
  destruct (fft_call b N k x m X HN Hh Hx HX) as (m1 & O1 & R1 & _). destruct (fft_call b' (r * N) k x' m' _ HL Hh' Hx' HY) as (m2 & O2 & R2 & _).
  exists m1, m2, (transform k N X), (transform k (r * N) (fun j => X (j mod N))). split; [exact O1|]. split; [exact O2|]. split; [exact R1|]. split; [exact R2|].
  split; intros i Hi.
  - rewrite !unscaled_transform, DFT_repeat by auto. rewrite (Nat.mul_comm r i), Nat.mod_mul, Nat.div_mul by lia. reflexivity.
  - intros Hne. rewrite unscaled_transform, DFT_repeat by auto. destruct (Nat.eqb_spec (i mod r) 0); [contradiction|reflexivity].
Qed.
Print Assumptions C65_repetition.

(** ** every r-th element only: the coefficients of the long array add up (aliasing) *)
Theorem C65_decimation : forall k b b' N r x x' (m m' : mem CC) (Y : nat -> CC),
  unscaled k -> 0 < r -> valid_length N -> valid_length (r * N) -> fft_history b (Some N) m -> fft_history b' (Some (r * N)) m' ->
  ~ fft_own b (fst x) -> ~ fft_own b' (fst x') -> holds m x N (fun j => Y (r * j)) -> holds m' x' (r * N) Y ->
  exists m1 m2 U V, Outcome (fft_run b N k x) m m1 /\ Outcome (fft_run b' (r * N) k x') m' m2 /\ holds m1 x N U /\ holds m2 x' (r * N) V /\
    forall i, i < N -> cmul (rc (INR r)) (U i) = csum r (fun t => V (i + t * N)).
Proof.
  intros k b b' N r x x' m m' Y Hk Hr HN HL Hh Hh' Hx Hx' HX HY. assert (HNp : 0 < N) by (unfold valid_length in HN; lia).
  destruct (fft_call b N k x m _ HN Hh Hx HX) as (m1 & O1 & R1 & _). destruct (fft_call b' (r * N) k x' m' Y HL Hh' Hx' HY) as (m2 & O2 & R2 & _).
  exists m1, m2, (transform k N (fun j => Y (r * j))), (transform k (r * N) Y). split; [exact O1|]. split; [exact O2|]. split; [exact R1|]. split; [exact R2|].
  intros i Hi. rewrite unscaled_transform, DFT_decimate by auto. apply csum_ext. intros t Ht. symmetry. apply unscaled_transform. exact Hk.
Qed.
Print Assumptions C65_decimation.

(** ** The hypotheses are met: 12 elements padded with zeros to 36 *)
Example C65_hypotheses_met : forall b (X : nat -> CC), exists m m' : mem CC,
  let x := (b + 4, 0) in let Y := fun j => if j <? 12 then X j else (0, 0)%R in
  valid_length 12 /\ valid_length (3 * 12) /\ fft_history b (Some 12) m /\ fft_history b (Some (3 * 12)) m' /\ ~ fft_own b (fst x) /\
  holds m x 12 X /\ holds m' x (3 * 12) Y /\ (forall j, j < 12 -> Y j = X j) /\ (forall j, 12 <= j < 3 * 12 -> Y j = (0, 0)%R).
Proof.
  intros b X. assert (Hx : ~ fft_own b (fst (b + 4, 0))) by (unfold fft_own; cbn [fst]; lia).
  destruct (PropComplex.complex_hypotheses_met ROps b 12 (b + 4, 0) X Hx) as (m & H1 & H2).
  destruct (PropComplex.complex_hypotheses_met ROps b (3 * 12) (b + 4, 0) (fun j => if j <? 12 then X j else (0, 0)%R) Hx) as (m' & H3 & H4).
  exists m, m'. cbv zeta. split; [apply PropComplex.valid_lengths; lia|]. split; [apply (proj1 (proj2 PropComplex.valid_lengths)); lia|].
  split; [exact H1|]. split; [exact H3|]. split; [exact Hx|]. split; [exact H2|]. split; [exact H4|].
  split; intros j Hj; [rewrite (proj2 (Nat.ltb_lt _ _)) by lia|rewrite (proj2 (Nat.ltb_ge _ _)) by lia]; reflexivity.
Qed.
