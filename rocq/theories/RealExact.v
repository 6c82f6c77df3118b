(** * RFFT in exact arithmetic: the methods compute the (scaled) DFT of a real sequence and back *)

From Coq Require Import Reals List Arith ZArith Bool Lia Lra.
From Verif Require Import Scalar RealOps Spec DftFacts Mem MemFacts Lanes Stage Object Engine Blocks ApiSpec
  ModelApi ApiFacts ApiExact ModelReal RealFacts RealRun.
Import ListNotations.
Local Open Scope R_scope.

Lemma sn_INR n : @sn ROps n = INR n.
Proof. unfold sn. cbn. symmetry. apply INR_IZR_INZ. Qed.

(** ** the table *)
Definition ang (N e : nat) : R := 2 * PI * INR e / INR N.
Definition Uval (N e : nat) : CC := ((1 + sin (ang N e)) / 2, cos (ang N e) / 2).
Lemma Uval_W N e : Uval N e = cmul (rc (/ 2)) (cadd (@c1 ROps) (cmul ci (W false N e))).
Proof.
  unfold Uval, W, ang, cis. replace (-1 * (2 * PI * INR e / INR N)) with (- (2 * PI * INR e / INR N)) by ring.
  rewrite cos_neg, sin_neg. csimp; field.
Qed.

Lemma sin_m a b : sin (a - b) = sin a * cos b - cos a * sin b. Proof. apply sin_minus. Qed.
Lemma ang_plus N p a t : (0 < N)%nat -> INR a = INR N * t -> ang N (a + p) = 2 * PI * t + ang N p.
Proof. intros HN E. unfold ang. rewrite plus_INR, E. field. apply not_0_INR. lia. Qed.
Lemma ang_minus N p a t : (0 < N)%nat -> (p <= a)%nat -> INR a = INR N * t -> ang N (a - p) = 2 * PI * t - ang N p.
Proof. intros HN Hp E. unfold ang. rewrite minus_INR, E by auto. field. apply not_0_INR. lia. Qed.

Lemma U_exact N e : (0 < N)%nat -> (e < N + 1)%nat -> U_T N e = Uval N e.
Proof.
  intros HN He. revert e He. unfold U_T.
  apply (tval_prop (U_es N) (U_us N) (U_it N) (@c0 ROps) (U_n N) (N + 1) (fun e v => v = Uval N e)).
  - intros. apply U_len.
  - intros e He. apply U_cov; auto.
  - intros i. unfold U_n, U_es, U_us.
    assert (HN0 : INR N <> 0) by (apply not_0_INR; lia).
    destruct (Nat.eqb_spec N (2 ^ Nat.log2 N)) as [E|E]; cbn [negb].
    + destruct (Nat.leb_spec N 4) as [H4|H4]; intros Hi.
      * destruct (pow2_small N E H4) as [-> | [-> | ->]]; cbn [Nat.eqb combine]; repeat constructor; cbn [fst snd]; unfold half2, Uval, ang; creduce.
        all: cbn [INR] in *.
        all: match goal with |- context [2 * PI * ?x / ?y] => 
             first [replace (2 * PI * x / y) with 0 by field; rewrite sin_0, cos_0
                   |replace (2 * PI * x / y) with (2 * PI) by field; rewrite sin_2PI, cos_2PI
                   |replace (2 * PI * x / y) with PI by field; rewrite sin_PI, cos_PI
                   |replace (2 * PI * x / y) with (PI / 2) by field; rewrite sin_PI2, cos_PI2
                   |replace (2 * PI * x / y) with (3 * (PI / 2)) by field; rewrite sin_3PI2, cos_3PI2] end.
        all: apply f_equal2; try reflexivity; field.
      * destruct (pow2_8 N E) as (E8 & Hp); try lia. destruct (div_8 N _ E8) as (A & B & _).
        repeat match goal with |- context [(N =? ?k)%nat] => destruct (Nat.eqb_spec N k); [lia|] end.
        cbv zeta. rewrite A, B. set (Ne := (N / 8)%nat) in *. clearbody Ne.
        assert (EN : INR N = 8 * INR Ne) by (rewrite E8, mult_INR; cbn [INR]; ring).
        assert (Et : INR i * (2 * PI / INR N) = ang N i) by (unfold ang; field; auto).
        assert (T1 : INR (2 * Ne) = INR N * (/ 4)) by (rewrite EN, mult_INR; cbn [INR]; field).
        assert (T2 : INR (4 * Ne) = INR N * (/ 2)) by (rewrite EN, mult_INR; cbn [INR]; field).
        assert (T3 : INR (N - 2 * Ne) = INR N * (3 / 4)) by (rewrite minus_INR, EN, mult_INR by lia; cbn [INR]; field).
        assert (T4 : INR N = INR N * 1) by ring.
        assert (A1 : 2 * PI * / 4 = PI / 2) by field.
        assert (A2 : 2 * PI * / 2 = PI) by field.
        assert (A3 : 2 * PI * (3 / 4) = 3 * (PI / 2)) by field.
        repeat constructor; cbn [fst snd]; unfold half2, Uval; creduce; rewrite ?sn_INR, ?Et.
        all: first [rewrite (ang_plus N i _ _ HN T1)|rewrite (ang_minus N i (2 * Ne)%nat _ HN ltac:(lia) T1)
                   |rewrite (ang_plus N i _ _ HN T2)|rewrite (ang_minus N i (4 * Ne)%nat _ HN ltac:(lia) T2)
                   |rewrite (ang_plus N i _ _ HN T3)|rewrite (ang_minus N i (N - 2 * Ne)%nat _ HN ltac:(lia) T3)
                   |rewrite (ang_minus N i N 1 HN ltac:(lia) T4)|idtac].
        all: rewrite ?A1, ?A2, ?A3, ?Rmult_1_r, ?sin_plus, ?cos_plus, ?sin_minus, ?cos_minus, ?sin_PI2, ?cos_PI2, ?sin_PI, ?cos_PI, ?sin_3PI2, ?cos_3PI2, ?sin_2PI, ?cos_2PI.
        all: apply f_equal2; field.
    + intros Hi. assert (Et : INR i * (2 * PI / INR N) = ang N i) by (unfold ang; field; auto).
      assert (T4 : INR N = INR N * 1) by ring.
      pose proof (Nat.div_mod N 2 ltac:(lia)).
      repeat constructor; cbn [fst snd]; unfold half2, Uval; creduce; rewrite ?sn_INR, ?Et.
      all: first [rewrite (ang_minus N i N 1 HN ltac:(lia) T4)|idtac].
      all: rewrite ?Rmult_1_r, ?sin_minus, ?cos_minus, ?sin_2PI, ?cos_2PI.
      all: apply f_equal2; field.
Qed.

(** ** splitting a DFT of even length *)
Lemma DFT_split2 f h x k : (0 < h)%nat ->
  DFT f (2 * h) x k = cadd (DFT f h (fun p => x (2 * p)%nat) k) (cmul (W f (2 * h) k) (DFT f h (fun p => x (2 * p + 1)%nat) k)).
Proof.
  intros Hh. unfold DFT. replace (2 * h)%nat with (h * 2)%nat at 1 by lia. rewrite csum_split_lo. rewrite <- csum_mul_l, <- csum_add.
  apply csum_ext. intros p _. cbn [csum].
  replace (0 + 2 * p)%nat with (2 * p)%nat by lia. replace (1 + 2 * p)%nat with (2 * p + 1)%nat by lia.
  replace ((2 * p + 1) * k)%nat with (2 * (p * k) + k)%nat by lia. replace (2 * p * k)%nat with (2 * (p * k))%nat by lia.
  rewrite W_add, W_scale by lia. csimp; ring.
Qed.

Definition isreal (x : nat -> CC) : Prop := forall j, cconj (x j) = x j.
Lemma DFT_real_mirror f h x k : (0 < h)%nat -> (k <= h)%nat -> isreal x -> cconj (DFT f h x k) = DFT f h x (h - k).
Proof.
  intros Hh Hk Hx. rewrite DFT_conj. unfold DFT. apply csum_ext. intros j _. rewrite Hx, W_negb_mul by auto. reflexivity.
Qed.
Lemma DFT_period f N x k : (0 < N)%nat -> DFT f N x (N + k) = DFT f N x k.
Proof. intros HN. apply csum_ext. intros j _. replace (j * (N + k))%nat with (j * k + N * j)%nat by lia. rewrite W_plus_mulN by auto. reflexivity. Qed.

Lemma rc_half_2 z : cmul (rc (/ 2)) (cadd z z) = z :> CC.
Proof. csimp; field. Qed.

Section Fwd.
Variables (N h : nat).
Hypothesis HN : N = (2 * h)%nat.
Hypothesis Hh : (0 < h)%nat.
Variable x : nat -> CC.
Hypothesis Hx : isreal x.
Let xe (p : nat) := x (2 * p)%nat.
Let xo (p : nat) := x (2 * p + 1)%nat.
Let E k := DFT false h xe k.
Let O k := DFT false h xo k.
Let Z k := DFT false h (fun p => cadd (cmul (@c1 ROps) (xe p)) (cmul ci (xo p))) k.

Lemma Z_EO k : Z k = cadd (E k) (cmul ci (O k)).
Proof. unfold Z. rewrite DFT_lin. fold (E k) (O k). ring. Qed.
Lemma E_mirror k : (k <= h)%nat -> E (h - k) = cconj (E k).
Proof. intros H. symmetry. apply DFT_real_mirror; auto. intros j. apply Hx. Qed.
Lemma O_mirror k : (k <= h)%nat -> O (h - k) = cconj (O k).
Proof. intros H. symmetry. apply DFT_real_mirror; auto. intros j. apply Hx. Qed.
Lemma X_EO k : DFT false N x k = cadd (E k) (cmul (W false N k) (O k)).
Proof. rewrite HN. apply DFT_split2. auto. Qed.

Lemma Zb k : (k <= h)%nat -> cconj (Z (h - k)) = csub (E k) (cmul ci (O k)).
Proof.
  intros Hk. rewrite Z_EO, E_mirror, O_mirror by auto. rewrite conj_add, conj_mul, !conj_conj. csimp; ring.
Qed.
Lemma split_first k : (k <= h)%nat ->
  csub (Z k) (cmul (Uval N k) (csub (Z k) (cconj (Z (h - k))))) = DFT false N x k.
Proof.
  intros Hk. rewrite Zb, Z_EO, X_EO, Uval_W by auto. generalize (E k) (O k) (W false N k). intros e o w. csimp; field.
Qed.
Lemma split_second k : (k <= h)%nat ->
  cconj (cadd (cconj (Z (h - k))) (cmul (Uval N k) (csub (Z k) (cconj (Z (h - k)))))) = DFT false N x (h - k).
Proof.
  intros Hk. rewrite Zb, Z_EO, X_EO, Uval_W, E_mirror, O_mirror by auto.
  assert (EW : W false N (h - k) = cneg (cconj (W false N k))).
  { rewrite W_conj. cbn [negb].
    assert (E1 : W false N (h - k) = W false N (N - (h + k))) by (f_equal; lia).
    rewrite E1, W_rev by lia. cbn [negb]. rewrite W_add, HN, W_half by auto. ring. }
  rewrite EW. generalize (E k) (O k) (W false N k). intros e o w. csimp; field.
Qed.
Lemma X0 : DFT false N x 0 = rc (Re (Z 0) + Im (Z 0)).
Proof.
  rewrite X_EO, W_0, Z_EO. pose proof (E_mirror 0 ltac:(lia)) as H1. pose proof (O_mirror 0 ltac:(lia)) as H2.
  rewrite Nat.sub_0_r in H1, H2.
  assert (E0 : E h = E 0%nat) by (unfold E; rewrite <- (DFT_period false h _ 0) by auto; f_equal; lia).
  assert (O0 : O h = O 0%nat) by (unfold O; rewrite <- (DFT_period false h _ 0) by auto; f_equal; lia).
  rewrite E0 in H1. rewrite O0 in H2. apply (f_equal snd) in H1, H2. revert H1 H2. generalize (E 0%nat) (O 0%nat). intros [a b] [c d].
  cbn. intros H1 H2. assert (b = 0) by lra. assert (d = 0) by lra. csimp; subst; ring.
Qed.
Lemma Xh : DFT false N x h = rc (Re (Z 0) - Im (Z 0)).
Proof.
  rewrite X_EO, HN, W_half, Z_EO by auto. pose proof (E_mirror 0 ltac:(lia)) as H1. pose proof (O_mirror 0 ltac:(lia)) as H2.
  rewrite Nat.sub_0_r in H1, H2.
  assert (E0 : E h = E 0%nat) by (unfold E; rewrite <- (DFT_period false h _ 0) by auto; f_equal; lia).
  assert (O0 : O h = O 0%nat) by (unfold O; rewrite <- (DFT_period false h _ 0) by auto; f_equal; lia).
  rewrite E0 in *. rewrite O0 in *. apply (f_equal snd) in H1, H2. revert H1 H2. generalize (E 0%nat) (O 0%nat). intros [a b] [c d].
  cbn. intros H1 H2. assert (b = 0) by lra. assert (d = 0) by lra. csimp; subst; ring.
Qed.
End Fwd.

(** the real input sequence *)
Definition re_of (X : nat -> CC) (j : nat) : CC := rc (Re (X j)).
Lemma re_of_real X : isreal (re_of X).
Proof. intros j. unfold re_of. csimp; ring. Qed.

Lemma rf_mul_factor N kind v : meth_inv kind = false -> (0 < N)%nat ->
  rf_mul N kind v = cscal (factor (meth_scaling kind) N) v :> CC.
Proof.
  intros Hk HN. pose proof (sqrt_lt_R0 (INR N) (lt_0_INR N HN)) as Hs. pose proof (lt_0_INR N HN) as Hp.
  destruct kind; try discriminate Hk; cbn [rf_mul meth_scaling factor]; rewrite ?sn_INR; csimp; rewrite ?sn_INR; field; lra.
Qed.
Lemma rf_div_factor N kind (v : R) : meth_inv kind = false -> (0 < N)%nat ->
  rval (rf_div N kind v) = cscal (factor (meth_scaling kind) N) (rc v) :> CC.
Proof.
  intros Hk HN. pose proof (sqrt_lt_R0 (INR N) (lt_0_INR N HN)) as Hs. pose proof (lt_0_INR N HN) as Hp. unfold rval.
  destruct kind; try discriminate Hk; cbn [rf_div meth_scaling factor]; csimp; rewrite ?sn_INR; try field; lra.
Qed.

Lemma rfft_F_exact N kind X e : real_length N -> meth_inv kind = false -> (e < N)%nat ->
  rfft_F N kind X e = transform kind N (re_of X) e.
Proof.
  intros (EN & _ & Hv) Hk He. unfold rfft_F. set (h := (N / 2)%nat) in *.
  assert (H2 : (2 <= h)%nat) by (destruct Hv; auto).
  destruct (quarter N h EN) as (_ & Q1 & Q2). set (Nq := (N / 4)%nat) in *.
  set (Z := fft0_F h fwd0 (rf_z X)).
  set (x := re_of X).
  set (Z' := DFT false h (fun p => cadd (cmul (@c1 ROps) (x (2 * p)%nat)) (cmul ci (x (2 * p + 1)%nat)))).
  assert (EZ : forall k, (k < h)%nat -> Z k = Z' k).
  { intros k Hk'. unfold Z, Z'. rewrite fft0_F_exact by auto. unfold transform. cbn [meth_scaling factor meth_inv]. rewrite SixExact.cscal_1.
    apply DFT_ext. intros j _. unfold rf_z, x, re_of. csimp; ring. }
  assert (Hf : forall k, (0 < k)%nat -> (k < h)%nat -> rf_first N kind (U_T N) Z k = transform kind N x k).
  { intros k H1 H3. unfold rf_first. fold h. cbv zeta. rewrite !EZ, U_exact by lia. rewrite rf_mul_factor by (auto; lia). unfold transform. rewrite Hk.
    f_equal. apply split_first; auto; try lia. apply re_of_real. }
  assert (Hg : forall k, (0 < k)%nat -> (k < h)%nat -> rf_second N kind (U_T N) Z k = transform kind N x (h - k)).
  { intros k H1 H3. unfold rf_second. fold h. cbv zeta. rewrite !EZ, U_exact by lia. rewrite rf_mul_factor by (auto; lia). unfold transform. rewrite Hk.
    f_equal. apply split_second; auto; try lia. apply re_of_real. }
  assert (Hh : forall k, (0 < k)%nat -> (k < h)%nat -> rf_half N kind (U_T N) Z k = transform kind N x k).
  { intros k H1 H3. unfold rf_half. fold h Nq. destruct (Nat.leb_spec (h - k) Nq).
    - rewrite Hg by lia. f_equal. lia.
    - apply Hf; auto. }
  unfold rf_out. fold h. destruct (Nat.eqb_spec e 0) as [->|H0].
  - rewrite EZ by lia. rewrite rf_div_factor by (auto; lia). unfold transform. rewrite Hk. f_equal. symmetry. apply (X0 N h EN ltac:(lia) x (re_of_real X)).
  - destruct (Nat.ltb_spec e h) as [Hl|Hl]; [apply Hh; lia|].
    destruct (Nat.eqb_spec e h) as [->|Hn].
    + rewrite EZ by lia. rewrite rf_div_factor by (auto; lia). unfold transform. rewrite Hk. f_equal. symmetry. apply (Xh N h EN ltac:(lia) x (re_of_real X)).
    + rewrite Hh by lia. unfold transform. rewrite Hk.
      replace e with (N - (N - e))%nat at 2 by lia. rewrite <- (DFT_real_mirror false N x (N - e)) by (try lia; apply re_of_real).
      rewrite !cscal_rc, conj_mul. f_equal. csimp; ring.
Qed.

(** ** inverse *)
(** the Hermitian spectrum determined by the entries 0 .. N/2 *)
Definition hermit (N : nat) (X : nat -> CC) (k : nat) : CC := if (k <=? N / 2)%nat then X k else cconj (X (N - k)%nat).

Lemma csum_S_l n f : csum (S n) f = cadd (f 0%nat) (csum n (fun i => f (S i))).
Proof. change (S n) with (1 + n)%nat. rewrite csum_app. cbn [csum]. f_equal. csimp; ring. Qed.
Lemma csum_rev n f : csum n f = csum n (fun i => f (n - 1 - i)%nat).
Proof.
  induction n as [|n IH]; [reflexivity|]. rewrite (csum_S_l n (fun i => f (S n - 1 - i)%nat)). cbn [csum]. rewrite IH.
  replace (S n - 1 - 0)%nat with n by lia.
  rewrite (csum_ext n (fun i => f (S n - 1 - S i)%nat) (fun i => f (n - 1 - i)%nat)) by (intros; f_equal; lia). ring.
Qed.
(** sums over a period run backwards *)
Lemma csum_flip n f : csum (S n) f = cadd (f 0%nat) (csum n (fun i => f (S n - S i)%nat)).
Proof.
  rewrite csum_S_l, csum_rev. f_equal. apply csum_ext. intros i Hi. f_equal. lia.
Qed.

(** the DFT of a Hermitian sequence is real *)
Lemma DFT_hermitian_real f N y k : (0 < N)%nat -> cconj (y 0%nat) = y 0%nat ->
  (forall j, (0 < j < N)%nat -> cconj (y j) = y (N - j)%nat) -> cconj (DFT f N y k) = DFT f N y k.
Proof.
  intros HN H0 H. rewrite DFT_conj. unfold DFT. destruct N as [|n]; [lia|]. rewrite csum_S_l, csum_flip. f_equal.
  - rewrite H0. cbn [Nat.mul]. rewrite !W_0. reflexivity.
  - apply csum_ext. intros i Hi. rewrite H by lia. f_equal.
    replace (S i * k)%nat with (k * S i)%nat by lia. rewrite W_negb_mul by lia. f_equal. lia.
Qed.

Section Inv.
Variables (N h : nat).
Hypothesis HN : N = (2 * h)%nat.
Hypothesis Hh : (0 < h)%nat.
Variable X : nat -> CC.
Hypothesis X0r : Im (X 0%nat) = 0.
Hypothesis Xhr : Im (X h) = 0.
Let Y := hermit N X.

Lemma Nh_2 : (N / 2 = h)%nat.
Proof. apply div_2_eq. auto. Qed.
Lemma Y_lo k : (k <= h)%nat -> Y k = X k.
Proof. intros H. unfold Y, hermit. rewrite Nh_2. destruct (Nat.leb_spec k h); [auto|lia]. Qed.
Lemma Y_hi k : (k < h)%nat -> Y (k + h)%nat = cconj (X (h - k)%nat).
Proof.
  intros H. unfold Y, hermit. rewrite Nh_2. destruct (Nat.leb_spec (k + h) h).
  - assert (k = 0)%nat by lia. subst k. rewrite Nat.sub_0_r. cbn [Nat.add]. revert Xhr. destruct (X h) as [a b]. cbn. intros ->. csimp; ring.
  - f_equal. f_equal. lia.
Qed.
Lemma Y_real k : cconj (DFT true N Y k) = DFT true N Y k.
Proof.
  apply DFT_hermitian_real; [lia| |].
  - rewrite Y_lo by lia. revert X0r. destruct (X 0%nat) as [a b]. cbn. intros ->. csimp; ring.
  - intros j Hj. destruct (Nat.lt_total j h) as [Hl|[->|Hl]].
    + rewrite Y_lo by lia. replace (N - j)%nat with (h - j + h)%nat by lia. rewrite Y_hi by lia. f_equal. f_equal. lia.
    + replace (N - h)%nat with h by lia. rewrite Y_lo by lia. revert Xhr. destruct (X h) as [a b]. cbn. intros ->. csimp; ring.
    + replace j with ((j - h) + h)%nat by lia. rewrite Y_hi, conj_conj by lia. rewrite Y_lo by lia. f_equal. lia.
Qed.

(** z_k = (X_k + X_{k+h}) / 2 + i conj(W^k) (X_k - X_{k+h}) / 2 *)
Definition zin k := cconj (csub (cconj (X k)) (cmul (Uval N k) (csub (cconj (X k)) (X (h - k)%nat)))).
Lemma zin_Y k : (k < h)%nat -> cmul (rc 2) (zin k) =
  cadd (cadd (Y k) (Y (k + h)%nat)) (cmul ci (cmul (W true N k) (csub (Y k) (Y (k + h)%nat)))).
Proof.
  intros Hk. unfold zin. rewrite Uval_W, Y_lo, Y_hi by lia. rewrite <- (W_conj false). generalize (X k) (X (h - k)%nat) (W false N k). intros a b w.
  csimp; field.
Qed.
Lemma zin_DFT p : DFT true h (fun k => cmul (rc 2) (zin k)) p =
  cadd (DFT true N Y (2 * p)) (cmul ci (DFT true N Y (2 * p + 1))).
Proof.
  unfold DFT. rewrite HN. replace (2 * h)%nat with (h + h)%nat by lia. rewrite !csum_app, <- !csum_add, <- csum_mul_l, <- csum_add.
  apply csum_ext. intros j Hj. rewrite zin_Y by auto.
  replace (h + h)%nat with (2 * h)%nat by lia. rewrite (Nat.add_comm h j).
  replace (j * (2 * p))%nat with (2 * (j * p))%nat by lia.
  replace ((j + h) * (2 * p))%nat with (2 * (j * p) + 2 * h * p)%nat by lia.
  replace (j * (2 * p + 1))%nat with (2 * (j * p) + j)%nat by lia.
  replace ((j + h) * (2 * p + 1))%nat with (2 * (j * p) + j + h + 2 * h * p)%nat by lia.
  rewrite !W_plus_mulN, !W_add, W_half, W_scale, HN by lia. ring.
Qed.
End Inv.

Definition ri_g (N : nat) (kind : meth) : R := match kind with inv | inv0 => 2 | invu => 2 / sqrt (INR N) | _ => 1 end.
Lemma ri_mul_g N kind (z : CC) : ri_mul N kind z = cscal (ri_g N kind) z.
Proof. destruct kind; cbn [ri_mul ri_g]; csimp; rewrite ?sn_INR; ring. Qed.
Lemma ri_factor N h kind : N = (2 * h)%nat -> (0 < h)%nat -> meth_inv kind = true ->
  factor (meth_scaling (ri_kind kind)) h * ri_g N kind * / 2 = factor (meth_scaling kind) N.
Proof.
  intros EN Hh Hk. assert (HN : (0 < N)%nat) by lia.
  pose proof (sqrt_lt_R0 (INR N) (lt_0_INR N HN)) as Hs. pose proof (lt_0_INR h Hh) as Hp.
  assert (E2 : INR N = 2 * INR h) by (rewrite EN, mult_INR; cbn [INR]; ring).
  destruct kind; try discriminate Hk; cbn [ri_kind ri_g meth_scaling factor]; try (field; lra). rewrite E2. field. lra.
Qed.

Lemma rfft_G_exact N kind X e : real_length N -> meth_inv kind = true -> Im (X 0%nat) = 0 -> Im (X (N / 2)%nat) = 0 -> (e < N)%nat ->
  rfft_G N kind X e = transform kind N (hermit N X) e.
Proof.
  intros (EN & _ & Hv) Hk H0 Hh0 He. unfold rfft_G. set (h := (N / 2)%nat) in *.
  assert (H2 : (2 <= h)%nat) by (destruct Hv; auto).
  set (Y := hermit N X).
  assert (EZ : forall p, (p < h)%nat -> fft0_F h (ri_kind kind) (ri_z N kind (U_T N) X) p =
     cscal (factor (meth_scaling kind) N) (cadd (DFT true N Y (2 * p)) (cmul ci (DFT true N Y (2 * p + 1))))).
  { intros p Hp. rewrite fft0_F_exact by auto. unfold transform.
    assert (Ek : meth_inv (ri_kind kind) = true) by (destruct kind; auto). rewrite Ek.
    rewrite (DFT_ext true h _ (fun k => cmul (rc (ri_g N kind * / 2)) (cmul (rc 2) (zin N h X k)))).
    - rewrite DFT_scal. rewrite (zin_DFT N h EN ltac:(lia) X Hh0). rewrite <- (ri_factor N h kind EN ltac:(lia) Hk), !cscal_rc.
      unfold Y. generalize (cadd (DFT true N (hermit N X) (2 * p)) (cmul ci (DFT true N (hermit N X) (2 * p + 1)))). intros z. csimp; ring.
    - intros j Hj. unfold ri_z. fold h. cbv zeta. rewrite U_exact by lia. rewrite ri_mul_g, cscal_rc. unfold zin.
      match goal with |- cmul _ ?z = _ => generalize z end. intros z. csimp; field. }
  pose proof (Nat.div_mod e 2 ltac:(lia)) as Hdm. pose proof (Nat.mod_upper_bound e 2 ltac:(lia)) as Hmu.
  unfold ri_out. rewrite EZ by lia. unfold transform. rewrite Hk. fold Y.
  pose proof (Y_real N h EN ltac:(lia) X H0 Hh0) as HR. fold Y in HR.
  assert (HR' : forall k, snd (DFT true N Y k) = 0).
  { intros k. specialize (HR k). apply (f_equal snd) in HR. revert HR. generalize (DFT true N Y k). intros [a b]. cbn. lra. }
  destruct (Nat.even e) eqn:Ee.
  - apply Nat.even_spec in Ee as (q & Eq). replace (e / 2)%nat with q by (symmetry; apply div_2_eq; auto). rewrite Eq.
    pose proof (HR' (2 * q)%nat) as A1. pose proof (HR' (2 * q + 1)%nat) as A2. revert A1 A2.
    generalize (DFT true N Y (2 * q)) (DFT true N Y (2 * q + 1)). intros [a b] [c d]. unfold rval. cbn. intros -> ->. csimp; ring.
  - assert (Eo : Nat.odd e = true) by (rewrite <- Nat.negb_even, Ee; auto). apply Nat.odd_spec in Eo as (q & Eq).
    replace (e / 2)%nat with q by lia. rewrite Eq.
    pose proof (HR' (2 * q)%nat) as A1. pose proof (HR' (2 * q + 1)%nat) as A2. revert A1 A2.
    generalize (DFT true N Y (2 * q)) (DFT true N Y (2 * q + 1)). intros [a b] [c d]. unfold rval. cbn. intros -> ->. csimp; ring.
Qed.
