(** * C69: images (two-dimensional arrays of real numbers)

    The rows with RealFFT, the columns with ComplexFFT: spectrum of an image, its symmetry, the way back, and filtering.
    In memory an image of P rows and N columns is an array of double, row after row. *)

From Coq Require Import Reals List Arith ZArith Bool Lia Lra.
From Verif Require Import Scalar RealOps Spec DftFacts Mem MemFacts Omp Lanes Stage Object Engine ApiSpec FactorFacts
  ModelApi History ApiFacts ApiExact Footprint ComplexThms ModelReal RealFacts RealRun RealExact GObj RealObj RealSpec RealThms PropComplex PropReal
  PropConvolution PropSymmetry PropResample PropBatch.
Import ListNotations.

(** ** Specification *)
(** the calls  obj.k(x, y); obj.k(x + N, y + N); ...; obj.k(x + (R-1)*N, y + (R-1)*N)  of a RealFFT object *)
Inductive rbatch {Op : Ops} (b N : nat) (k : meth) (x y : ptr) : nat -> mem C -> mem C -> Prop :=
| rbatch_nil m : rbatch b N k x y 0 m m
| rbatch_call R m m1 m2 : rbatch b N k x y R m m1 -> Outcome (rfft_run b N k (x +! R * N) (y +! R * N)) m1 m2 -> rbatch b N k x y (S R) m m2.
(** a spectrum of P rows and N columns that a real image can have *)
Definition hermitian2 (P N : nat) (S : nat -> nat -> CC) : Prop :=
  forall r c, r < P -> c < N -> S ((P - r) mod P) ((N - c) mod N) = cconj (S r c).
(** an image filtered with a kernel h, the edges glued together *)
Definition rcirc2 (P N : nat) (v h : nat -> nat -> R) (r c : nat) : R :=
  rsum P (fun r' => rsum N (fun c' => v r' c' * h ((r + (P - r')) mod P) ((c + (N - c')) mod N)))%R.

(** ** the batch, any arithmetic *)
Lemma disjR_block x y N R r : r < R -> disjR x (R * N) y (R * N) -> disjR (x +! r * N) N (y +! r * N) N.
Proof. intros Hr D i j Hi Hj. rewrite !padd_padd. apply D; nia. Qed.
Lemma rbatch_any (Op : Ops) b N k x y R (m : mem C) X :
  real_length N -> rfft_history b (Some N) m -> ~ fft_own b (fst x) -> ~ fft_own b (fst y) -> disjR x (R * N) y (R * N) ->
  allocd m (inR y (R * N)) -> holds m x (R * N) X ->
  exists m', rbatch b N k x y R m m' /\
    (forall r, r < R -> holds m' (y +! r * N) N (rfft_res N k (fun i => X (r * N + i)))) /\
    (forall l, ~ inR y (R * N) l -> (meth_inv k = true -> ~ inR x (R * N) l) -> m' l = m l) /\ rfft_history b (Some N) m'.
Proof.
  intros HN Hh Hx Hy. induction R as [|R IH]; intros D Ha HX.
  - exists m. split; [constructor|]. split; [intros r Hr; lia|]. split; [auto|exact Hh].
  - destruct IH as (m1 & B1 & R1 & F1 & H1).
    { intros i j Hi Hj. apply D; nia. }
    { intros l (i & Hi & ->). apply Ha. exists i. split; [nia|reflexivity]. }
    { intros i Hi. apply HX. nia. }
    assert (Dn : forall i j, i < S R * N -> j < S R * N -> x +! i <> y +! j) by exact D.
    assert (HXR : holds m1 (x +! R * N) N (fun i => X (R * N + i))).
    { intros i Hi. rewrite padd_padd. rewrite F1; [apply HX; nia| |].
      - intros (j & Hj & E). exact (Dn (R * N + i) j ltac:(nia) ltac:(nia) E).
      - intros _ (j & Hj & E). apply padd_inj in E. lia. }
    assert (HaR : allocd m1 (inR (y +! R * N) N)).
    { intros l (i & Hi & ->). rewrite padd_padd. rewrite F1; [apply Ha; exists (R * N + i); split; [nia|reflexivity]| |].
      - intros (j & Hj & E). apply padd_inj in E. lia.
      - intros _ (j & Hj & E). exact (Dn j (R * N + i) ltac:(nia) ltac:(nia) (eq_sym E)). }
    destruct (rfft_call_ok b N k (x +! R * N) (y +! R * N) m1 _ HN H1 Hx Hy (disjR_block x y N (S R) R ltac:(lia) D) HaR HXR) as (m2 & O2 & R2 & F2 & H2 & _).
    exists m2. split; [econstructor; eauto|]. split; [|split; [|exact H2]].
    + intros r Hr. destruct (Nat.eq_dec r R) as [->|Hne]; [exact R2|]. intros i Hi. rewrite F2; [apply (R1 r ltac:(lia) i Hi)| |].
      * intros (j & Hj & E). rewrite !padd_padd in E. apply padd_inj in E. nia.
      * intros _ (j & Hj & E). rewrite !padd_padd in E. refine (Dn (R * N + j) (r * N + i) _ _ (eq_sym E)); nia.
    + intros l Hl Hi. rewrite F2; [apply F1| |].
      * intros (j & Hj & ->). apply Hl. exists j. split; [nia|reflexivity].
      * intros Hk (j & Hj & ->). apply (Hi Hk). exists j. split; [nia|reflexivity].
      * intros Q. apply Hl. eapply off_inR; [|exact Q]. lia.
      * intros Hk Q. apply (Hi Hk). eapply off_inR; [|exact Q]. lia.
Qed.
Theorem C69_real_batch_any_arithmetic : forall (Op : Ops) N k, real_length N -> exists F : (nat -> C) -> nat -> C,
  (forall b x y (m : mem C) X, rfft_history b (Some N) m -> ~ fft_own b (fst x) -> ~ fft_own b (fst y) -> disjR x N y N ->
     allocd m (inR y N) -> holds m x N X -> exists m', Outcome (rfft_run b N k x y) m m' /\ holds m' y N (F X)) /\
  (forall b x y R (m : mem C) X, rfft_history b (Some N) m -> ~ fft_own b (fst x) -> ~ fft_own b (fst y) -> disjR x (R * N) y (R * N) ->
     allocd m (inR y (R * N)) -> holds m x (R * N) X ->
     exists m', rbatch b N k x y R m m' /\ (forall r, r < R -> holds m' (y +! r * N) N (F (fun i => X (r * N + i)))) /\
       (forall l, ~ inR y (R * N) l -> (meth_inv k = true -> ~ inR x (R * N) l) -> m' l = m l) /\ rfft_history b (Some N) m').
Proof.
  intros Op N k HN. exists (rfft_res N k). split.
  - intros b x y m X Hh Hx Hy D Ha HX. destruct (rfft_call_ok b N k x y m X HN Hh Hx Hy D Ha HX) as (m' & O & R & _). exists m'. auto.
  - intros b x y R m X Hh Hx Hy D Ha HX. apply rbatch_any; auto.
Qed.
Print Assumptions C69_real_batch_any_arithmetic.

(** ** algebra of the two-dimensional DFT *)
Definition D2 (inv : bool) (P N : nat) (X : nat -> nat -> CC) (r c : nat) : CC := DFT inv P (fun r' => DFT inv N (X r') c) r.
Lemma cscal1 (z : CC) : @cscal ROps 1%R z = z.
Proof. csimp; ring. Qed.
Lemma dft2_D inv P N X r c : dft2 inv P N X r c = D2 inv P N X r c.
Proof.
  unfold D2. pose proof (dft2_transform (if inv then inv0 else fwd0) P N X r c) as E. destruct inv; cbn [meth_scaling factor meth_inv] in E;
  unfold transform in E; cbn [meth_scaling factor meth_inv] in E; rewrite cscal1 in E;
  rewrite (DFT_ext _ P _ _ r (fun r' _ => cscal1 (DFT _ N (X r') c))) in E; rewrite E; generalize (dft2 true P N X r c), (dft2 false P N X r c); intros u w; csimp; ring.
Qed.
Lemma transform2_mirror k P N (v : nat -> nat -> R) : 0 < P -> 0 < N ->
  hermitian2 P N (fun r c => transform k P (fun r' => transform k N (fun j => rc (v r' j)) c) r).
Proof.
  intros HP HN r c Hr Hc. rewrite !dft2_transform.
  replace (dft2 (meth_inv k) P N (fun r' j => rc (v r' j)) ((P - r) mod P) ((N - c) mod N)) with (cconj (dft2 (meth_inv k) P N (fun r' j => rc (v r' j)) r c)).
  { generalize (dft2 (meth_inv k) P N (fun r' j => rc (v r' j)) r c), (factor (meth_scaling k) P), (factor (meth_scaling k) N). intros z f g. csimp; ring. }
  unfold dft2. rewrite csum_conj. apply csum_ext. intros r' Hr'. rewrite csum_conj. apply csum_ext. intros c' Hc'.
  rewrite !conj_mul, !W_conj, !W_negb_mul by lia. replace (cconj (rc (v r' c'))) with (rc (v r' c')) by (csimp; ring).
  f_equal. f_equal; (apply W_cong; [lia|]; rewrite Nat.mul_mod_idemp_r by lia; reflexivity).
Qed.

(** rows of the image, then columns: the row spectra of a Hermitian spectrum are spectra of real rows *)
Lemma column_mirror k P N (S : nat -> nat -> CC) r c : 0 < P -> r < P -> c < N -> hermitian2 P N S ->
  transform k P (fun r' => S r' ((N - c) mod N)) r = cconj (transform k P (fun r' => S r' c) r).
Proof.
  intros HP Hr Hc HS. unfold transform.
  replace (DFT (meth_inv k) P (fun r' => S r' ((N - c) mod N)) r) with (cconj (DFT (meth_inv k) P (fun r' => S r' c) r)).
  { generalize (DFT (meth_inv k) P (fun r' => S r' c) r), (factor (meth_scaling k) P). intros z f. csimp; ring. }
  rewrite DFT_conj.
  rewrite (DFT_ext (negb (meth_inv k)) P (fun j => cconj (S j c)) (fun j => S ((P - j) mod P) ((N - c) mod N))) by (intros j Hj; symmetry; apply HS; auto).
  rewrite (DFT_reverse (negb (meth_inv k)) P (fun j => S j ((N - c) mod N)) r) by auto. rewrite DFT_mod by auto.
  unfold DFT. apply csum_ext. intros j _. f_equal. rewrite <- (W_negb_mul (negb (meth_inv k))), negb_involutive by lia. reflexivity.
Qed.

(** filtering multiplies the spectra *)
Lemma rc_rsum n f : rc (rsum n f) = csum n (fun j => rc (f j)).
Proof. induction n as [|n IH]; [reflexivity|]. cbn [rsum csum]. rewrite <- IH. csimp; ring. Qed.
Lemma dft2_rcirc P N v h r c : 0 < P -> 0 < N ->
  dft2 false P N (fun r' c' => rc (rcirc2 P N v h r' c')) r c = cmul (dft2 false P N (fun r' c' => rc (v r' c')) r c) (dft2 false P N (fun r' c' => rc (h r' c')) r c).
Proof.
  intros HP HN. rewrite !dft2_D. unfold D2.
  set (A := fun r' => DFT false N (fun j => rc (v r' j)) c). set (B := fun r' => DFT false N (fun j => rc (h r' j)) c).
  rewrite <- (DFT_circ false P A B r HP). apply DFT_ext. intros r' Hr'. unfold circ, A, B.
  rewrite (csum_ext P _ (fun j => DFT false N (circ N (fun c' => rc (v j c')) (fun c' => rc (h ((r' + (P - j)) mod P) c'))) c)).
  2:{ intros j _. rewrite DFT_circ by exact HN. reflexivity. }
  unfold DFT. rewrite csum_swap. apply csum_ext. intros c' _. rewrite csum_mul_r. f_equal.
  unfold rcirc2. rewrite rc_rsum. apply csum_ext. intros j _. rewrite circ_rc. reflexivity.
Qed.

(** ** from an image to its spectrum *)
(** element (r, c) of an array of N columns *)
Lemma row_holds (m : mem CC) x P N X : 0 < N -> holds m x (P * N) (fun i => X (i / N) (i mod N)) -> forall r c, r < P -> c < N -> m (x +! (r * N + c)) = Val (X r c).
Proof.
  intros HN H r c Hr Hc. rewrite H by nia. f_equal.
  rewrite (Nat.add_comm (r * N)), Nat.div_add, Nat.div_small, Nat.mod_add, Nat.mod_small by lia. reflexivity.
Qed.
Lemma holds_rows (m : mem CC) x P N X : 0 < N -> (forall r c, r < P -> c < N -> m (x +! (r * N + c)) = Val (X r c)) -> holds m x (P * N) (fun i => X (i / N) (i mod N)).
Proof.
  intros HN H i Hi. pose proof (Nat.div_mod i N ltac:(lia)) as E. rewrite E at 1. rewrite (Nat.mul_comm N). apply H; [|apply Nat.mod_upper_bound; lia].
  apply Nat.div_lt_upper_bound; lia.
Qed.
Lemma row_ext N r (X : nat -> nat -> CC) i : i < N -> X ((r * N + i) / N) ((r * N + i) mod N) = X r i.
Proof. intros Hi. rewrite (Nat.add_comm (r * N)), Nat.div_add, Nat.div_small, Nat.mod_add, Nat.mod_small by lia. reflexivity. Qed.

Lemma image_spectrum_full : forall k b b' N P x y z (m : mem CC) v,
  real_length N -> valid_length P -> meth_inv k = false -> rfft_history b (Some N) m -> fft_history b' (Some P) m ->
  (forall d, ~ (fft_own b d /\ fft_own b' d)) -> (forall q, In q [x; y; z] -> ~ fft_own b (fst q) /\ ~ fft_own b' (fst q)) ->
  disjR x (P * N) y (P * N) -> allocd m (inR y (P * N)) ->
  holds m x (P * N) (fun i => rc (v (i / N) (i mod N))) ->
  exists m1 Y, rbatch b N k x y P m m1 /\ (forall r c, r < P -> c < N -> m1 (y +! (r * N + c)) = Val (Y r c)) /\
    (forall l, ~ inR y (P * N) l -> m1 l = m l) /\
    forall m2, (forall l, fft_own b (fst l) \/ fft_own b' (fst l) -> m2 l = m1 l) -> (forall r c, r < P -> c < N -> m2 (z +! (c * P + r)) = Val (Y r c)) ->
    exists m3, batch b' P k z N m2 m3 /\
      (forall r c, r < P -> c < N -> m3 (z +! (c * P + r)) = Val (transform k P (fun r' => transform k N (fun j => rc (v r' j)) c) r)) /\
      rfft_history b (Some N) m3 /\ fft_history b' (Some P) m3.
Proof.
  intros k b b' N P x y z m v HN HP Hk Hh Hh' Hown Hq D Ha HX.
  pose proof (real_length_pos N HN) as HNp. assert (HPp : 0 < P) by (unfold valid_length in HP; lia).
  destruct (Hq x ltac:(cbn; auto)) as [Qx Qx']. destruct (Hq y ltac:(cbn; auto)) as [Qy Qy']. destruct (Hq z ltac:(cbn; auto)) as [Qz Qz']. clear Hq.
  destruct (rbatch_any ROps b N k x y P m _ HN Hh Qx Qy D Ha HX) as (m1 & B1 & R1 & F1 & H1).
  exists m1, (fun r c => transform k N (fun j => rc (v r j)) c). split; [exact B1|]. split; [|split].
  { intros r c Hr Hc. rewrite <- padd_padd. rewrite (R1 r Hr c Hc). f_equal. unfold rfft_res. rewrite Hk, rfft_F_exact by auto. apply transform_ext. intros i Hi.
    change (rc (v ((r * N + i) / N) ((r * N + i) mod N)) = rc (v r i)). exact (row_ext N r (fun r0 i0 => rc (v r0 i0)) i Hi). }
  { intros l Hl. apply F1; [exact Hl|]. rewrite Hk. discriminate. }
  intros m2 Hf HY.
  assert (H2' : fft_history b' (Some P) m2).
  { eapply h_other; [exact Hh'|]. intros l Hl. rewrite Hf by (right; exact Hl). apply F1; [|rewrite Hk; discriminate].
    intros (j & _ & ->). apply Qy'. exact Hl. }
  assert (H2 : rfft_history b (Some N) m2) by (eapply h_other; [exact H1|]; intros l Hl; apply Hf; left; exact Hl).
  destruct (C63_batch b' P k z N m2 (fun i => transform k N (fun j => rc (v (i mod P) j)) (i / P)) HP H2' Qz') as (m3 & B3 & R3 & F3 & H3).
  { intros i Hi. pose proof (Nat.div_mod i P ltac:(lia)) as E. rewrite E at 1. rewrite (Nat.mul_comm P). apply HY; [apply Nat.mod_upper_bound; lia|].
    apply Nat.div_lt_upper_bound; lia. }
  exists m3. split; [exact B3|]. split; [|split; [|exact H3]].
  - intros r c Hr Hc. rewrite <- padd_padd. rewrite (R3 c Hc r Hr). f_equal. apply transform_ext. intros r' Hr'.
    rewrite (Nat.add_comm (c * P) r'), Nat.mod_add, Nat.mod_small, Nat.div_add, Nat.div_small by lia. reflexivity.
  - eapply h_other; [exact H2|]. intros l Hl. apply F3; [|intros Q; exact (Hown _ (conj Hl Q))]. intros (j & _ & ->). apply Qz. exact Hl.
Qed.
(** the two batches leave, column by column in z, the scaled two-dimensional DFT; the image is unchanged after the first; the spectrum is Hermitian *)
Theorem C69_image_spectrum : forall k b b' N P x y z (m : mem CC) v,
  real_length N -> valid_length P -> meth_inv k = false -> rfft_history b (Some N) m -> fft_history b' (Some P) m ->
  (forall d, ~ (fft_own b d /\ fft_own b' d)) -> (forall q, In q [x; y; z] -> ~ fft_own b (fst q) /\ ~ fft_own b' (fst q)) ->
  disjR x (P * N) y (P * N) -> allocd m (inR y (P * N)) ->
  holds m x (P * N) (fun i => rc (v (i / N) (i mod N))) ->
  exists m1 Y, rbatch b N k x y P m m1 /\ (forall r c, r < P -> c < N -> m1 (y +! (r * N + c)) = Val (Y r c)) /\
    (forall l, ~ inR y (P * N) l -> m1 l = m l) /\
    forall m2, (forall l, fft_own b (fst l) \/ fft_own b' (fst l) -> m2 l = m1 l) -> (forall r c, r < P -> c < N -> m2 (z +! (c * P + r)) = Val (Y r c)) ->
    exists m3 S, batch b' P k z N m2 m3 /\ (forall r c, r < P -> c < N -> m3 (z +! (c * P + r)) = Val (S r c)) /\
      (forall r c, S r c = @cscal ROps (factor (meth_scaling k) P * factor (meth_scaling k) N)%R (dft2 false P N (fun r' c' => rc (v r' c')) r c)) /\
      hermitian2 P N S.
Proof.
  intros k b b' N P x y z m v HN HP Hk Hh Hh' Hown Hq D Ha HX.
  destruct (image_spectrum_full k b b' N P x y z m v HN HP Hk Hh Hh' Hown Hq D Ha HX) as (m1 & Y & B1 & R1 & F1 & K).
  exists m1, Y. split; [exact B1|]. split; [exact R1|]. split; [exact F1|]. intros m2 Hf HY. destruct (K m2 Hf HY) as (m3 & B3 & R3 & _).
  exists m3, (fun r c => transform k P (fun r' => transform k N (fun j => rc (v r' j)) c) r). split; [exact B3|]. split; [exact R3|]. split.
  - intros r c. rewrite dft2_transform, Hk. reflexivity.
  - apply transform2_mirror; [unfold valid_length in HP; lia|apply (real_length_pos N HN)].
Qed.
Print Assumptions C69_image_spectrum.

(** ** from a Hermitian spectrum, stored column by column in z, to the image in x *)
Theorem C69_image_inverse : forall k b b' N P z w x (m : mem CC) S,
  real_length N -> valid_length P -> meth_inv k = true -> rfft_history b (Some N) m -> fft_history b' (Some P) m ->
  (forall d, ~ (fft_own b d /\ fft_own b' d)) -> (forall q, In q [x; w; z] -> ~ fft_own b (fst q) /\ ~ fft_own b' (fst q)) ->
  disjR w (P * N) x (P * N) -> hermitian2 P N S ->
  (forall r c, r < P -> c < N -> m (z +! (c * P + r)) = Val (S r c)) ->
  exists m1 Y, batch b' P k z N m m1 /\ (forall r c, r < P -> c < N -> m1 (z +! (c * P + r)) = Val (Y r c)) /\
    forall m2, (forall l, fft_own b (fst l) -> m2 l = m1 l) -> (forall r c, r < P -> c < N -> m2 (w +! (r * N + c)) = Val (Y r c)) ->
      allocd m2 (inR x (P * N)) ->
    exists m3 v, rbatch b N k w x P m2 m3 /\ (forall r c, r < P -> c < N -> m3 (x +! (r * N + c)) = Val (rc (v r c)) /\
      rc (v r c) = @cscal ROps (factor (meth_scaling k) P * factor (meth_scaling k) N)%R (dft2 true P N S r c)).
Proof.
  intros k b b' N P z w x m S HN HP Hk Hh Hh' Hown Hq D HS HX.
  pose proof (real_length_pos N HN) as HNp. assert (HPp : 0 < P) by (unfold valid_length in HP; lia).
  destruct (Hq x ltac:(cbn; auto)) as [Qx Qx']. destruct (Hq w ltac:(cbn; auto)) as [Qw Qw']. destruct (Hq z ltac:(cbn; auto)) as [Qz Qz']. clear Hq.
  set (Yf := fun r c => transform k P (fun r' => S r' c) r).
  destruct (C63_batch b' P k z N m (fun i => S (i mod P) (i / P)) HP Hh' Qz') as (m1 & B1 & R1 & F1 & H1).
  { intros i Hi. pose proof (Nat.div_mod i P ltac:(lia)) as E. rewrite E at 1. rewrite (Nat.mul_comm P). apply HX; [apply Nat.mod_upper_bound; lia|].
    apply Nat.div_lt_upper_bound; lia. }
  exists m1, Yf. split; [exact B1|]. split.
  { intros r c Hr Hc. rewrite <- padd_padd. rewrite (R1 c Hc r Hr). f_equal. apply transform_ext. intros r' Hr'.
    rewrite (Nat.add_comm (c * P) r'), Nat.mod_add, Nat.mod_small, Nat.div_add, Nat.div_small by lia. reflexivity. }
  intros m2 Hf HY Ha.
  assert (H2 : rfft_history b (Some N) m2).
  { eapply h_other; [exact Hh|]. intros l Hl. rewrite Hf by exact Hl. apply F1; [|intros Q; exact (Hown _ (conj Hl Q))]. intros (j & _ & ->). apply Qz. exact Hl. }
  destruct (rbatch_any ROps b N k w x P m2 _ HN H2 Qw Qx D Ha (holds_rows m2 w P N Yf HNp HY)) as (m3 & B3 & R3 & _ & _).
  exists m3, (fun r c => Re (rfft_G N k (fun i => Yf ((r * N + i) / N) ((r * N + i) mod N)) c)). split; [exact B3|]. intros r c Hr Hc.
  assert (EM : forall i, i < N -> Yf r ((N - i) mod N) = cconj (Yf r i)) by (intros i Hi; apply column_mirror; auto).
  assert (ER : real_length N) by exact HN. assert (EN : N = 2 * (N / 2)) by apply HN. assert (Hh2 : 2 <= N / 2) by apply HN.
  set (X := fun i => Yf ((r * N + i) / N) ((r * N + i) mod N)).
  assert (EX : forall i, i < N -> X i = Yf r i) by (intros i Hi; apply row_ext; auto).
  assert (I0 : Im (X 0) = 0%R).
  { apply self_conj_real. rewrite EX by lia. rewrite <- EM by lia. f_equal. rewrite Nat.sub_0_r, Nat.mod_same by lia. reflexivity. }
  assert (Ih : Im (X (N / 2)) = 0%R).
  { apply self_conj_real. rewrite EX by lia. rewrite <- EM by lia. f_equal. rewrite Nat.mod_small by lia. lia. }
  split.
  - rewrite <- padd_padd. rewrite (R3 r Hr c Hc). unfold rfft_res. rewrite Hk. reflexivity.
  - transitivity (rfft_G N k X c); [reflexivity|]. rewrite rfft_G_exact by auto.
    transitivity (transform k N (fun i => Yf r i) c).
    + apply transform_ext. intros j Hj. unfold hermit. destruct (Nat.leb_spec j (N / 2)); [apply EX; exact Hj|].
      rewrite EX by lia. rewrite <- EM by lia. f_equal. rewrite Nat.mod_small by lia. lia.
    + unfold Yf. rewrite <- Hk.
      (* exchange rows and columns *)
      pose proof (dft2_transform k N P (fun c' r' => S r' c') c r) as E1. cbn beta in E1.
      transitivity (@cscal ROps (factor (meth_scaling k) N * factor (meth_scaling k) P)%R (dft2 (meth_inv k) N P (fun c' r' => S r' c') c r)); [exact E1|].
      rewrite (Rmult_comm (factor (meth_scaling k) N)). f_equal. unfold dft2. rewrite csum_swap. apply csum_ext. intros r' _. apply csum_ext. intros c' _. ring.
Qed.
Print Assumptions C69_image_inverse.

(** ** there and back: unchanged, or filtered by multiplying the spectrum with that of a kernel *)
Lemma dft2_ext inv P N X Y r c : (forall r c, r < P -> c < N -> X r c = Y r c) -> dft2 inv P N X r c = dft2 inv P N Y r c.
Proof. intros H. unfold dft2. apply csum_ext. intros i Hi. apply csum_ext. intros j Hj. rewrite H by auto. reflexivity. Qed.
Lemma dft2_back k1 k2 P N (Q : nat -> nat -> CC) r c : undoes k1 k2 = true -> 0 < P -> 0 < N -> r < P -> c < N ->
  @cscal ROps (factor (meth_scaling k2) P * factor (meth_scaling k2) N)%R
    (dft2 (meth_inv k2) P N (fun r c => transform k1 P (fun r' => transform k1 N (Q r') c) r) r c) = Q r c.
Proof.
  intros Hu HP HN Hr Hc. rewrite <- dft2_transform.
  (* rows first, then columns, of what was made rows first, then columns: exchange the order of the inner pair *)
  rewrite (transform_ext k2 P _ (fun r' => transform k1 P (fun r'' => Q r'' c) r')).
  - exact (transform_inverse k1 k2 P (fun r'' => Q r'' c) r Hu HP Hr).
  - intros r' Hr'.
    rewrite (transform_ext k2 N _ (fun j => transform k1 N (fun c' => transform k1 P (fun r'' => Q r'' c') r') j)).
    + exact (transform_inverse k1 k2 N (fun c' => transform k1 P (fun r'' => Q r'' c') r') c Hu HN Hc).
    + intros j Hj. rewrite dft2_transform. pose proof (dft2_transform k1 N P (fun c' r'' => Q r'' c') j r') as E1. cbn beta in E1. symmetry.
      transitivity (@cscal ROps (factor (meth_scaling k1) N * factor (meth_scaling k1) P)%R (dft2 (meth_inv k1) N P (fun c' r'' => Q r'' c') j r')); [exact E1|].
      rewrite (Rmult_comm (factor (meth_scaling k1) N)). f_equal. unfold dft2. rewrite csum_swap. apply csum_ext. intros r'' _. apply csum_ext. intros c' _. ring.
Qed.
Lemma image_back k1 k2 b b' N P z w x (m : mem CC) q : undoes k1 k2 = true -> meth_inv k1 = false ->
  real_length N -> valid_length P -> rfft_history b (Some N) m -> fft_history b' (Some P) m ->
  (forall d, ~ (fft_own b d /\ fft_own b' d)) -> (forall p, In p [x; w; z] -> ~ fft_own b (fst p) /\ ~ fft_own b' (fst p)) ->
  disjR w (P * N) x (P * N) ->
  (forall r c, r < P -> c < N -> m (z +! (c * P + r)) = Val (transform k1 P (fun r' => transform k1 N (fun j => rc (q r' j)) c) r)) ->
  exists m1 Y, batch b' P k2 z N m m1 /\ (forall r c, r < P -> c < N -> m1 (z +! (c * P + r)) = Val (Y r c)) /\
    forall m2, (forall l, fft_own b (fst l) -> m2 l = m1 l) -> (forall r c, r < P -> c < N -> m2 (w +! (r * N + c)) = Val (Y r c)) ->
      allocd m2 (inR x (P * N)) ->
    exists m3, rbatch b N k2 w x P m2 m3 /\ holds m3 x (P * N) (fun i => rc (q (i / N) (i mod N))).
Proof.
  intros Hu Hk1 HN HP Hh Hh' Hown Hq D HX. pose proof (real_length_pos N HN) as HNp. assert (HPp : 0 < P) by (unfold valid_length in HP; lia).
  assert (Hk2 : meth_inv k2 = true) by (unfold undoes in Hu; rewrite Hk1 in Hu; destruct (meth_inv k2); auto; discriminate).
  destruct (C69_image_inverse k2 b b' N P z w x m (fun r c => transform k1 P (fun r' => transform k1 N (fun j => rc (q r' j)) c) r) HN HP Hk2 Hh Hh' Hown Hq D
    (transform2_mirror k1 P N q HPp HNp) HX) as (m1 & Y & B1 & R1 & K).
  exists m1, Y. split; [exact B1|]. split; [exact R1|]. intros m2 Hf HY Ha. destruct (K m2 Hf HY Ha) as (m3 & v & B3 & R3).
  exists m3. split; [exact B3|]. apply (holds_rows m3 x P N (fun r c => rc (q r c)) HNp). intros r c Hr Hc. destruct (R3 r c Hr Hc) as [E1 E2].
  rewrite E1. f_equal. rewrite E2. rewrite <- Hk2. exact (dft2_back k1 k2 P N (fun r' j => rc (q r' j)) r c Hu HPp HNp Hr Hc).
Qed.
Theorem C69_image_round_trip : forall k1 k2 b b' N P x y z w x' (m : mem CC) v,
  undoes k1 k2 = true -> meth_inv k1 = false -> real_length N -> valid_length P -> rfft_history b (Some N) m -> fft_history b' (Some P) m ->
  (forall d, ~ (fft_own b d /\ fft_own b' d)) -> (forall p, In p [x; y; z; w; x'] -> ~ fft_own b (fst p) /\ ~ fft_own b' (fst p)) ->
  disjR x (P * N) y (P * N) -> disjR w (P * N) x' (P * N) -> allocd m (inR y (P * N)) ->
  holds m x (P * N) (fun i => rc (v (i / N) (i mod N))) ->
  (* rows *)
  exists m1 Y, rbatch b N k1 x y P m m1 /\ (forall r c, r < P -> c < N -> m1 (y +! (r * N + c)) = Val (Y r c)) /\
    (* the client transposes y into z *)
    forall m2, (forall l, fft_own b (fst l) \/ fft_own b' (fst l) -> m2 l = m1 l) -> (forall r c, r < P -> c < N -> m2 (z +! (c * P + r)) = Val (Y r c)) ->
    (* columns *)
    exists m3 S, batch b' P k1 z N m2 m3 /\ (forall r c, r < P -> c < N -> m3 (z +! (c * P + r)) = Val (S r c)) /\
      (* the client does other things *)
      forall m4, (forall l, fft_own b (fst l) \/ fft_own b' (fst l) -> m4 l = m3 l) -> (forall r c, r < P -> c < N -> m4 (z +! (c * P + r)) = Val (S r c)) ->
      (* columns back *)
      exists m5 T, batch b' P k2 z N m4 m5 /\ (forall r c, r < P -> c < N -> m5 (z +! (c * P + r)) = Val (T r c)) /\
        (* the client transposes z into w *)
        forall m6, (forall l, fft_own b (fst l) -> m6 l = m5 l) -> (forall r c, r < P -> c < N -> m6 (w +! (r * N + c)) = Val (T r c)) -> allocd m6 (inR x' (P * N)) ->
        (* rows back *)
        exists m7, rbatch b N k2 w x' P m6 m7 /\ holds m7 x' (P * N) (fun i => rc (v (i / N) (i mod N))).
Proof.
  intros k1 k2 b b' N P x y z w x' m v Hu Hk1 HN HP Hh Hh' Hown Hq D D' Ha HX.
  destruct (image_spectrum_full k1 b b' N P x y z m v HN HP Hk1 Hh Hh' Hown) as (m1 & Y & B1 & R1 & _ & K); auto.
  { intros p Hp. apply Hq. cbn in *. tauto. }
  exists m1, Y. split; [exact B1|]. split; [exact R1|]. intros m2 Hf HY. destruct (K m2 Hf HY) as (m3 & B3 & R3 & H3 & H3').
  eexists m3, _. split; [exact B3|]. split; [exact R3|]. intros m4 Hf4 HS.
  apply (image_back k1 k2 b b' N P z w x' m4 v); auto.
  - eapply h_other; [exact H3|]. intros l Hl. apply Hf4. left. exact Hl.
  - eapply h_other; [exact H3'|]. intros l Hl. apply Hf4. right. exact Hl.
  - intros p Hp. apply Hq. cbn in *. tauto.
Qed.
Print Assumptions C69_image_round_trip.
Theorem C69_image_filter : forall k1 k2 b b' N P x y z w x' (m : mem CC) v h,
  undoes k1 k2 = true -> meth_inv k1 = false -> real_length N -> valid_length P -> rfft_history b (Some N) m -> fft_history b' (Some P) m ->
  (forall d, ~ (fft_own b d /\ fft_own b' d)) -> (forall p, In p [x; y; z; w; x'] -> ~ fft_own b (fst p) /\ ~ fft_own b' (fst p)) ->
  disjR x (P * N) y (P * N) -> disjR w (P * N) x' (P * N) -> allocd m (inR y (P * N)) ->
  holds m x (P * N) (fun i => rc (v (i / N) (i mod N))) ->
  exists m1 Y, rbatch b N k1 x y P m m1 /\ (forall r c, r < P -> c < N -> m1 (y +! (r * N + c)) = Val (Y r c)) /\
    forall m2, (forall l, fft_own b (fst l) \/ fft_own b' (fst l) -> m2 l = m1 l) -> (forall r c, r < P -> c < N -> m2 (z +! (c * P + r)) = Val (Y r c)) ->
    exists m3 S, batch b' P k1 z N m2 m3 /\ (forall r c, r < P -> c < N -> m3 (z +! (c * P + r)) = Val (S r c)) /\
      (* the client multiplies the spectrum, element by element, with the unscaled spectrum of the kernel *)
      forall m4, (forall l, fft_own b (fst l) \/ fft_own b' (fst l) -> m4 l = m3 l) ->
        (forall r c, r < P -> c < N -> m4 (z +! (c * P + r)) = Val (cmul (S r c) (dft2 false P N (fun r' c' => rc (h r' c')) r c))) ->
      exists m5 T, batch b' P k2 z N m4 m5 /\ (forall r c, r < P -> c < N -> m5 (z +! (c * P + r)) = Val (T r c)) /\
        forall m6, (forall l, fft_own b (fst l) -> m6 l = m5 l) -> (forall r c, r < P -> c < N -> m6 (w +! (r * N + c)) = Val (T r c)) -> allocd m6 (inR x' (P * N)) ->
        exists m7, rbatch b N k2 w x' P m6 m7 /\ holds m7 x' (P * N) (fun i => rc (rcirc2 P N v h (i / N) (i mod N))).
Proof.
  intros k1 k2 b b' N P x y z w x' m v h Hu Hk1 HN HP Hh Hh' Hown Hq D D' Ha HX.
  pose proof (real_length_pos N HN) as HNp. assert (HPp : 0 < P) by (unfold valid_length in HP; lia).
  destruct (image_spectrum_full k1 b b' N P x y z m v HN HP Hk1 Hh Hh' Hown) as (m1 & Y & B1 & R1 & _ & K); auto.
  { intros p Hp. apply Hq. cbn in *. tauto. }
  exists m1, Y. split; [exact B1|]. split; [exact R1|]. intros m2 Hf HY. destruct (K m2 Hf HY) as (m3 & B3 & R3 & H3 & H3').
  eexists m3, _. split; [exact B3|]. split; [exact R3|]. intros m4 Hf4 HS.
  apply (image_back k1 k2 b b' N P z w x' m4 (rcirc2 P N v h)); auto.
  - eapply h_other; [exact H3|]. intros l Hl. apply Hf4. left. exact Hl.
  - eapply h_other; [exact H3'|]. intros l Hl. apply Hf4. right. exact Hl.
  - intros p Hp. apply Hq. cbn in *. tauto.
  - intros r c Hr Hc. rewrite (HS r c Hr Hc). f_equal. rewrite !dft2_transform, Hk1, dft2_rcirc by auto.
    generalize (dft2 false P N (fun r' j => rc (v r' j)) r c), (dft2 false P N (fun r' c' => rc (h r' c')) r c), (factor (meth_scaling k1) P * factor (meth_scaling k1) N)%R.
    intros p q f. csimp; ring.
Qed.
Print Assumptions C69_image_filter.

(** ** The hypotheses are met: images of 12 rows and 32 columns, in every arithmetic (X r c is rc (v r c) over the reals, rval (v r c) on doubles) *)
Example C69_hypotheses_met : forall (Op : Ops) b (X : nat -> nat -> C), exists (m : mem C),
  let q i := (b + 8 + i, 0) in
  real_length 32 /\ valid_length 12 /\ rfft_history b (Some 32) m /\ fft_history (b + 4) (Some 12) m /\
  (forall d, ~ (fft_own b d /\ fft_own (b + 4) d)) /\ (forall p, In p [q 0; q 1; q 2; q 3; q 4] -> ~ fft_own b (fst p) /\ ~ fft_own (b + 4) (fst p)) /\
  disjR (q 0) (12 * 32) (q 1) (12 * 32) /\ disjR (q 3) (12 * 32) (q 4) (12 * 32) /\ allocd m (inR (q 1) (12 * 32)) /\
  holds m (q 0) (12 * 32) (fun i => X (i / 32) (i mod 32)).
Proof.
  intros Op b X.
  assert (Hx : ~ fft_own b (b + 8)) by (unfold fft_own; lia). assert (Hx' : ~ fft_own (b + 4) (b + 8)) by (unfold fft_own; lia).
  assert (Hy : ~ fft_own b (b + 9)) by (unfold fft_own; lia).
  assert (R32 : real_length 32) by (apply (proj1 real_lengths 5); lia).
  destruct (real_hypotheses_met Op b 32 (b + 8, 0) (b + 9, 0) (X 0) R32 Hx Hy) as (m1 & H1 & _).
  { intros i j _ _ E. unfold padd in E. injection E. lia. }
  destruct (complex_hypotheses_met Op (b + 4) 12 (b + 8, 0) (X 0) Hx') as (m2 & H2 & _).
  exists (fun l : loc => if fst l <=? b + 3 then m1 l else if fst l <=? b + 7 then m2 l else Val (X (snd l / 32) (snd l mod 32))).
  cbv zeta. split; [exact R32|]. split; [apply valid_lengths; lia|].
  split; [eapply h_other; [exact H1|]|split; [eapply h_other; [exact H2|]|]].
  - intros l Hl. unfold fft_own in Hl. rewrite (proj2 (Nat.leb_le _ _)) by lia. reflexivity.
  - intros l Hl. unfold fft_own in Hl. rewrite (proj2 (Nat.leb_gt _ _)) by lia. rewrite (proj2 (Nat.leb_le _ _)) by lia. reflexivity.
  - split; [unfold fft_own; intros d; lia|]. split.
    { intros p Hp. cbn [In] in Hp. unfold fft_own. repeat (destruct Hp as [<-|Hp]; [cbn [fst]; lia|]). destruct Hp. }
    split; [intros i j _ _ E; unfold padd in E; cbn [fst snd] in E; injection E; lia|].
    split; [intros i j _ _ E; unfold padd in E; cbn [fst snd] in E; injection E; lia|]. split.
    + intros l (i & _ & ->). unfold padd. cbn [fst snd]. rewrite !(proj2 (Nat.leb_gt _ _)) by lia. discriminate.
    + intros i Hi. unfold padd. cbn [fst snd]. rewrite !(proj2 (Nat.leb_gt _ _)) by lia. reflexivity.
Qed.
