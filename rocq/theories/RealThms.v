(** * Lemmas behind the property theorems of RealFFT *)

From Coq Require Import Reals List Arith ZArith Bool Lia Lra.
From Verif Require Import Scalar RealOps Spec DftFacts Mem MemFacts Omp Lanes Stage Object Engine ApiSpec FactorFacts
  ModelApi History ApiFacts ApiExact Footprint ComplexThms ModelReal RealFacts RealRun RealExact GObj RealObj RealSpec.
Import ListNotations.

Lemma re_of_rc (v : nat -> R) j : re_of (fun j => rc (v j)) j = rc (v j). Proof. reflexivity. Qed.
Lemma real_length_pos N : real_length N -> (0 < N)%nat.
Proof. intros (E & _ & H & _). lia. Qed.
Lemma disj_out x y N l : disjR x N y N -> inR x N l -> ~ inR y N l.
Proof. intros D Hx Hy. eapply disjR_inR; eauto. Qed.

Lemma real_fwd_gen b N k x y (m : mem CC) v :
  real_length N -> meth_inv k = false -> rfft_history b (Some N) m ->
  ~ fft_own b (fst x) -> ~ fft_own b (fst y) -> disjR x N y N -> allocd m (inR y N) ->
  holds m x N (fun j => rc (v j)) ->
  exists m', Outcome (rfft_run b N k x y) m m' /\ holds m' y N (transform k N (fun j => rc (v j))) /\
    (forall l, ~ inR y N l -> m' l = m l) /\ rfft_history b (Some N) m'.
Proof.
  intros HN Hk Hh Hx Hy Hd Ha HX.
  destruct (rfft_call_ok b N k x y m _ HN Hh Hx Hy Hd Ha HX) as (m' & H1 & H2 & H3 & H4 & _).
  exists m'. split; [exact H1|]. split; [|split; [|exact H4]].
  - intros i Hi. rewrite (H2 i Hi). f_equal. unfold rfft_res. rewrite Hk. apply rfft_F_exact; auto.
  - intros l Hl. apply H3; auto. rewrite Hk. discriminate.
Qed.

Lemma transform_cis_fwd k N X i : meth_inv k = false ->
  transform k N X i = cscal (factor (meth_scaling k) N) (csum N (fun j => cmul (X j) (cis (- (2 * PI * INR (j * i) / INR N))))).
Proof.
  intros Hk. unfold transform. rewrite Hk. f_equal. apply csum_ext. intros j _. unfold W. do 2 f_equal. ring.
Qed.
Lemma transform_cis_inv k N X i : meth_inv k = true ->
  transform k N X i = cscal (factor (meth_scaling k) N) (csum N (fun j => cmul (X j) (cis (2 * PI * INR (j * i) / INR N)))).
Proof.
  intros Hk. unfold transform. rewrite Hk. f_equal. apply csum_ext. intros j _. unfold W. do 2 f_equal. ring.
Qed.

Lemma real_forward : forall b N k x y (m : mem CC) v,
  real_length N -> meth_inv k = false -> rfft_history b (Some N) m ->
  ~ fft_own b (fst x) -> ~ fft_own b (fst y) -> disjR x N y N -> allocd m (inR y N) ->
  holds m x N (fun j => rc (v j)) ->
  exists m', Outcome (rfft_run b N k x y) m m' /\
    (forall i, i < N -> m' (y +! i) = Val (cscal (factor (meth_scaling k) N)
       (csum N (fun j => cmul (rc (v j)) (cis (- (2 * PI * INR (j * i) / INR N))))))) /\
    (forall l, ~ inR y N l -> m' l = m l) /\ holds m' x N (fun j => rc (v j)).
Proof.
  intros b N k x y m v HN Hk Hh Hx Hy Hd Ha HX.
  destruct (real_fwd_gen b N k x y m v HN Hk Hh Hx Hy Hd Ha HX) as (m' & H1 & H2 & H3 & _).
  exists m'. split; [exact H1|]. split; [|split; [exact H3|]].
  - intros i Hi. rewrite (H2 i Hi), transform_cis_fwd by auto. reflexivity.
  - intros i Hi. rewrite H3; [apply HX; auto|]. eapply disj_out; eauto. apply inR_i. auto.
Qed.

(** spectra of real vectors *)
Lemma transform_mirror k N x i : meth_inv k = false -> (0 < N)%nat -> isreal x -> (i <= N)%nat ->
  transform k N x (N - i) = cconj (transform k N x i).
Proof.
  intros Hk HN Hx Hi. unfold transform. rewrite Hk, <- DFT_real_mirror by auto. generalize (DFT false N x i). intros z. csimp; ring.
Qed.
Lemma isreal_rc v : isreal (fun j => rc (v j)).
Proof. intros j. csimp; ring. Qed.
Lemma self_conj_real (z : CC) : z = cconj z -> Im z = 0%R.
Proof. intros E. apply (f_equal snd) in E. destruct z as [p q]. cbn in *. lra. Qed.
Lemma transform_Im0 k N x : meth_inv k = false -> (0 < N)%nat -> isreal x -> Im (transform k N x 0) = 0%R.
Proof.
  intros Hk HN Hx. apply self_conj_real. rewrite <- transform_mirror by (auto; lia). rewrite Nat.sub_0_r.
  unfold transform. f_equal. rewrite <- (DFT_period _ N x 0) by auto. f_equal. lia.
Qed.

Lemma real_hermitian : forall b N k x y (m : mem CC) v,
  real_length N -> meth_inv k = false -> rfft_history b (Some N) m ->
  ~ fft_own b (fst x) -> ~ fft_own b (fst y) -> disjR x N y N -> allocd m (inR y N) ->
  holds m x N (fun j => rc (v j)) ->
  exists m' Y, Outcome (rfft_run b N k x y) m m' /\ holds m' y N Y /\
    (forall i, 0 < i < N -> Y (N - i) = cconj (Y i)) /\ Im (Y 0) = 0%R /\ Im (Y (N / 2)) = 0%R.
Proof.
  intros b N k x y m v HN Hk Hh Hx Hy Hd Ha HX.
  destruct (real_fwd_gen b N k x y m v HN Hk Hh Hx Hy Hd Ha HX) as (m' & H1 & H2 & _).
  pose proof (real_length_pos N HN) as HN0.
  exists m', (transform k N (fun j => rc (v j))). split; [exact H1|]. split; [exact H2|]. split; [|split].
  - intros i Hi. apply transform_mirror; auto; [apply isreal_rc|lia].
  - apply transform_Im0; auto. apply isreal_rc.
  - apply self_conj_real. destruct HN as (EN & _). rewrite <- transform_mirror; [f_equal; lia|auto|lia|apply isreal_rc|lia].
Qed.

Lemma real_inverse : forall b N k x y (m : mem CC) X,
  real_length N -> meth_inv k = true -> rfft_history b (Some N) m ->
  ~ fft_own b (fst x) -> ~ fft_own b (fst y) -> disjR x N y N -> allocd m (inR y N) -> holds m x N X ->
  Im (X 0) = 0%R -> (forall i, 0 < i < N -> X (N - i) = cconj (X i)) ->
  exists m' r, Outcome (rfft_run b N k x y) m m' /\
    (forall i, i < N -> m' (y +! i) = Val (rc (r i)) /\
       rc (r i) = cscal (factor (meth_scaling k) N) (csum N (fun j => cmul (X j) (cis (2 * PI * INR (j * i) / INR N))))) /\
    (forall l, ~ inR y N l -> ~ inR x N l -> m' l = m l).
Proof.
  intros b N k x y m X HN Hk Hh Hx Hy Hd Ha HX H0 HH.
  destruct (rfft_call_ok b N k x y m _ HN Hh Hx Hy Hd Ha HX) as (m' & H1 & H2 & H3 & H4 & _).
  assert (EN : N = (2 * (N / 2))%nat) by apply HN. assert (Hh2 : (2 <= N / 2)%nat) by apply HN.
  assert (Hhalf : Im (X (N / 2)) = 0%R).
  { apply self_conj_real. rewrite <- HH by lia. f_equal. lia. }
  exists m', (fun i => Re (rfft_G N k X i)). split; [exact H1|]. split.
  - intros i Hi. split.
    + rewrite (H2 i Hi). unfold rfft_res. rewrite Hk. reflexivity.
    + rewrite <- transform_cis_inv by auto. transitivity (rfft_G N k X i); [reflexivity|].
      rewrite rfft_G_exact by auto. apply transform_ext. intros j Hj. unfold hermit. destruct (Nat.leb_spec j (N / 2)); [reflexivity|].
      rewrite <- HH by lia. f_equal. lia.
  - intros l A B. apply H3; auto.
Qed.

Lemma real_round_trip : forall k1 k2 b N x y z (m : mem CC) v,
  In (k1, k2) [(fwd, inv); (fwd, inv0); (fwdn, inv); (fwdn, inv0); (fwd0, invn); (fwdu, invu)] ->
  real_length N -> rfft_history b (Some N) m ->
  ~ fft_own b (fst x) -> ~ fft_own b (fst y) -> ~ fft_own b (fst z) ->
  disjR x N y N -> disjR y N z N -> allocd m (inR y N) ->
  holds m x N (fun j => rc (v j)) ->
  exists m1, Outcome (rfft_run b N k1 x y) m m1 /\
    forall m2, (forall l, fft_own b (fst l) \/ inR y N l -> m2 l = m1 l) -> allocd m2 (inR z N) ->
    exists m3, Outcome (rfft_run b N k2 y z) m2 m3 /\ holds m3 z N (fun j => rc (v j)).
Proof.
  intros k1 k2 b N x y z m v Hk HN Hh Hx Hy Hz Dxy Dyz Ha HX.
  assert (Hkk : meth_inv k1 = false /\ meth_inv k2 = true /\ undoes k1 k2 = true).
  { repeat (destruct Hk as [[= <- <-]|Hk]; [repeat split|]). destruct Hk. }
  destruct Hkk as (Hk1 & Hk2 & Hu).
  pose proof (real_length_pos N HN) as HN0.
  destruct (real_fwd_gen b N k1 x y m v HN Hk1 Hh Hx Hy Dxy Ha HX) as (m1 & H1 & H2 & H3 & H4).
  exists m1. split; [exact H1|]. intros m2 Hf Haz.
  destruct (real_inverse b N k2 y z m2 (transform k1 N (fun j => rc (v j)))) as (m3 & r & J1 & J2 & _); auto.
  - eapply h_other; [exact H4|]. auto.
  - intros i Hi. rewrite Hf by (right; apply inR_i; auto). apply H2. auto.
  - apply transform_Im0; auto. apply isreal_rc.
  - intros i Hi. apply transform_mirror; auto; [apply isreal_rc|lia].
  - exists m3. split; [exact J1|]. intros i Hi. destruct (J2 i Hi) as (E1 & E2). rewrite E1, E2. f_equal.
    rewrite <- transform_cis_inv by auto. rewrite (transform_inverse k1 k2) by auto. reflexivity.
Qed.

(** linearity *)
Definition lin2 (a c : R) (X Y : nat -> CC) (i : nat) : CC := cadd (cmul (rc a) (X i)) (cmul (rc c) (Y i)).
Lemma rfft_res_lin N k X Y a c i : real_length N -> (i < N)%nat ->
  rfft_res N k (lin2 a c X Y) i = lin2 a c (rfft_res N k X) (rfft_res N k Y) i.
Proof.
  intros HN Hi. unfold rfft_res. destruct (meth_inv k) eqn:Hk.
  - assert (EN : N = (2 * (N / 2))%nat) by apply HN. unfold rfft_G. set (h := (N / 2)%nat) in *.
    assert (L : forall p, (p < h)%nat ->
      fft0_F h (ri_kind k) (ri_z N k (U_T N) (lin2 a c X Y)) p =
      lin2 a c (fft0_F h (ri_kind k) (ri_z N k (U_T N) X)) (fft0_F h (ri_kind k) (ri_z N k (U_T N) Y)) p).
    { intros p Hp. unfold lin2 at 2. rewrite !fft0_F_exact by (auto; apply HN). rewrite <- transform_lin.
      apply transform_ext. intros j Hj. unfold ri_z. cbv zeta. rewrite !ri_mul_g, !cscal_rc.
      unfold lin2. generalize (X j) (Y j) (X (N / 2 - j)%nat) (Y (N / 2 - j)%nat) (U_T N j). intros [] [] [] [] []. csimp; ring. }
    assert (Hp : (i / 2 < h)%nat) by (apply Nat.div_lt_upper_bound; lia).
    unfold ri_out at 1. rewrite L by auto. unfold lin2, ri_out.
    generalize (fft0_F h (ri_kind k) (ri_z N k (U_T N) X) (i / 2)) (fft0_F h (ri_kind k) (ri_z N k (U_T N) Y) (i / 2)).
    intros [] []. destruct (Nat.even i); unfold rval; csimp; ring.
  - unfold lin2 at 2. rewrite !rfft_F_exact by auto. rewrite <- transform_lin. apply transform_ext. intros j Hj.
    unfold re_of, lin2. csimp; ring.
Qed.

Lemma real_linear : forall k b N x y (mX mY mZ : mem CC) X Y (a c : R),
  real_length N -> rfft_history b (Some N) mX -> rfft_history b (Some N) mY -> rfft_history b (Some N) mZ ->
  ~ fft_own b (fst x) -> ~ fft_own b (fst y) -> disjR x N y N ->
  allocd mX (inR y N) -> allocd mY (inR y N) -> allocd mZ (inR y N) ->
  holds mX x N X -> holds mY x N Y -> holds mZ x N (fun i => cadd (cmul (rc a) (X i)) (cmul (rc c) (Y i))) ->
  exists mX' mY' mZ' X' Y', Outcome (rfft_run b N k x y) mX mX' /\ Outcome (rfft_run b N k x y) mY mY' /\ Outcome (rfft_run b N k x y) mZ mZ' /\
    holds mX' y N X' /\ holds mY' y N Y' /\ holds mZ' y N (fun i => cadd (cmul (rc a) (X' i)) (cmul (rc c) (Y' i))).
Proof.
  intros k b N x y mX mY mZ X Y a c HN H1 H2 H3 Hx Hy Hd A1 A2 A3 B1 B2 B3.
  destruct (rfft_call_ok b N k x y mX _ HN H1 Hx Hy Hd A1 B1) as (m1 & O1 & R1 & _).
  destruct (rfft_call_ok b N k x y mY _ HN H2 Hx Hy Hd A2 B2) as (m2 & O2 & R2 & _).
  destruct (rfft_call_ok b N k x y mZ _ HN H3 Hx Hy Hd A3 B3) as (m3 & O3 & R3 & _).
  exists m1, m2, m3, (rfft_res N k X), (rfft_res N k Y). repeat (split; [assumption|]).
  intros i Hi. rewrite (R3 i Hi). f_equal. apply rfft_res_lin; auto.
Qed.

Lemma real_is_complex : forall k b N x y b' x' (m m' : mem CC) v,
  meth_inv k = false -> real_length N -> valid_length N ->
  rfft_history b (Some N) m -> ~ fft_own b (fst x) -> ~ fft_own b (fst y) -> disjR x N y N -> allocd m (inR y N) ->
  holds m x N (fun j => rc (v j)) ->
  fft_history b' (Some N) m' -> ~ fft_own b' (fst x') -> holds m' x' N (fun j => rc (v j)) ->
  exists m1 m1' Y, Outcome (rfft_run b N k x y) m m1 /\ holds m1 y N Y /\
    Outcome (fft_run b' N k x') m' m1' /\ holds m1' x' N Y.
Proof.
  intros k b N x y b' x' m m' v Hk HN HNv Hh Hx Hy Hd Ha HX Hh' Hx' HX'.
  destruct (real_fwd_gen b N k x y m v HN Hk Hh Hx Hy Hd Ha HX) as (m1 & H1 & H2 & _).
  destruct (fft_call b' N k x' m' _ HNv Hh' Hx' HX') as (m1' & J1 & J2 & _).
  exists m1, m1', (transform k N (fun j => rc (v j))). auto.
Qed.

(** ** any arithmetic *)
Section Any.
Context {Op : Ops}.
Lemma real_safety : forall b N k x y (m : mem C) X,
  real_length N -> rfft_history b (Some N) m -> ~ fft_own b (fst x) -> ~ fft_own b (fst y) -> disjR x N y N ->
  allocd m (inR y N) -> holds m x N X ->
  (exists m', Outcome (rfft_run b N k x y) m m' /\ (forall l, ~ inR y N l -> (meth_inv k = true -> ~ inR x N l) -> m' l = m l)) /\
  accesses_only (rfft_run b N k x y) m (fun l => inR x N l \/ inR y N l \/ fft_own b (fst l)).
Proof.
  intros b N k x y m X HN Hh Hx Hy Hd Ha HX.
  destruct (rfft_call_ok b N k x y m _ HN Hh Hx Hy Hd Ha HX) as (m' & H1 & H2 & H3 & H4 & H5). split; [exists m'; auto|exact H5].
Qed.
Lemma real_setup_safety : forall b N o (m : mem C), rfft_history b o m ->
  (exists m', Outcome (rfft_setup b N) m m' /\ (forall l, ~ fft_own b (fst l) -> m' l = m l)) /\
  accesses_only (rfft_setup b N) m (fun l => fft_own b (fst l)).
Proof. intros b N o m Hh. destruct (rfft_setup_call b N o m Hh) as (m' & H1 & H2 & _ & H4). split; [exists m'; auto|exact H4]. Qed.
Lemma real_deterministic : forall N k, real_length N ->
  exists F : (nat -> C) -> nat -> C, forall b x y (m : mem C) X,
    rfft_history b (Some N) m -> ~ fft_own b (fst x) -> ~ fft_own b (fst y) -> disjR x N y N -> allocd m (inR y N) -> holds m x N X ->
    exists m', Outcome (rfft_run b N k x y) m m' /\ holds m' y N (F X).
Proof.
  intros N k HN. exists (rfft_res N k). intros b x y m X Hh Hx Hy Hd Ha HX.
  destruct (rfft_call_ok b N k x y m _ HN Hh Hx Hy Hd Ha HX) as (m' & H1 & H2 & _). exists m'. auto.
Qed.
Lemma real_no_race : forall b N k x y (m : mem C) X,
  real_length N -> rfft_history b (Some N) m -> ~ fft_own b (fst x) -> ~ fft_own b (fst y) -> disjR x N y N ->
  allocd m (inR y N) -> holds m x N X ->
  forall n T m1, call_reach (rfft_run b N k x y) m n T m1 -> forall i j, i < n -> j < n -> i <> j -> ~ racing (T i) (T j).
Proof.
  intros b N k x y m X HN Hh Hx Hy Hd Ha HX.
  destruct (rfft_call_ok b N k x y m _ HN Hh Hx Hy Hd Ha HX) as (m' & [_ _ _ H _ _] & _). exact H.
Qed.
Lemma real_object_unchanged : forall b N k x y (m : mem C) X,
  real_length N -> rfft_history b (Some N) m -> ~ fft_own b (fst x) -> ~ fft_own b (fst y) -> disjR x N y N ->
  allocd m (inR y N) -> holds m x N X ->
  exists m', Outcome (rfft_run b N k x y) m m' /\ (forall l, fft_own b (fst l) -> m' l = m l).
Proof.
  intros b N k x y m X HN Hh Hx Hy Hd Ha HX.
  destruct (rfft_call_ok b N k x y m _ HN Hh Hx Hy Hd Ha HX) as (m' & H1 & H2 & H3 & _). exists m'. split; [exact H1|].
  intros l Hl. apply H3; [|intros _]; intros Hr; apply inR_fst in Hr; rewrite Hr in Hl; auto.
Qed.
Lemma real_inhabited : forall b N x y X, real_length N -> ~ fft_own b (fst x) -> ~ fft_own b (fst y) -> disjR x N y N ->
  exists m : mem C, rfft_history b (Some N) m /\ allocd m (inR y N) /\ holds m x N X.
Proof.
  intros b N x y X HN Hx Hy Hd.
  destruct (rfft_history_any b N (poke x N X (fun _ => Uninit)) HN) as (m & Hm & Hf). exists m. split; [exact Hm|]. split.
  - intros l Hl. rewrite Hf.
    + unfold poke. destruct (inRb x N l); discriminate.
    + apply inR_fst in Hl. rewrite Hl. auto.
  - intros i Hi. rewrite Hf by auto. apply poke_holds. auto.
Qed.
End Any.

Lemma real_lengths_ok : (forall n, 2 <= n <= 30 -> real_length (2 ^ n)) /\
  (forall h, 2 <= h -> (Z.of_nat h <= 46340)%Z -> real_length (2 * h)).
Proof.
  split.
  - intros n Hn. destruct n as [|n]; [lia|]. cbn [Nat.pow]. assert (E : 2 * 2 ^ n / 2 = 2 ^ n) by (rewrite Nat.mul_comm; apply Nat.div_mul; lia).
    split; [rewrite E; auto|]. split.
    + change (2 * 2 ^ n) with (2 ^ S n). rewrite Nat2Z.inj_pow. apply Z.pow_le_mono_r; lia.
    + rewrite E. split; [|split].
      * change 2 with (2 ^ 1) at 1. apply Nat.pow_le_mono_r; lia.
      * rewrite Nat2Z.inj_pow. apply Z.pow_le_mono_r; lia.
      * apply factors_fit_pow2.
  - intros h H2 H. assert (E : 2 * h / 2 = h) by (rewrite Nat.mul_comm; apply Nat.div_mul; lia).
    split; [rewrite E; auto|]. split; [lia|]. rewrite E. split; [auto|]. split; [lia|]. apply factors_fit_small; auto; lia.
Qed.
