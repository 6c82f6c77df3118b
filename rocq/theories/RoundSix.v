(** * Rounding errors of the six-step and eight-step transforms *)

From Coq Require Import Reals ZArith List Arith Bool Lia Lra Psatz.
From Verif Require Import Scalar RealOps Spec DftFacts Norm Simd Round RoundBf RoundTab RoundStage RoundPow.
From Verif Require Import Engine ApiSpec FftSpec Butterfly ButterflyFacts CoreStage Twid ModelPow PowDrive PowKern PowRun PowClassFacts MixedSpec PowButterfly PowSpec PowExact ModelSix SixIndex SixRun SixPart SixEight SixClass SixExact.
Import ListNotations.
Local Open Scope nat_scope.

(** separate transforms, together *)
Lemma nrm_rows n s X : nrm (n * s) X = nrm s (fun q => (nrm n (fun a => X (q + s * a)), 0%R)).
Proof.
  unfold nrm at 1 2. f_equal. replace (n * s) with (s * n) by lia. rewrite rsum_split_hi. apply rsum_ext. intros q _.
  unfold cnorm2 at 2. cbn [fst snd]. rewrite nrm_sq. ring.
Qed.
Lemma flo_flo f n s : (flo (flo f n) s = flo f (n * s))%R.
Proof. unfold flo. rewrite mult_INR, sqrt_mult by apply pos_INR. ring. Qed.
Lemma fft_err_rows f inv n s c E X Z : (0 <= f)%R -> (0 <= c)%R -> (1 <= E)%R ->
  (forall q, q < s -> fft_err f inv n 1 c E (fun a => X (q + s * a)) (fun k => Z (q + s * k))) -> fft_err f inv n s c E X Z.
Proof.
  intros Hf Hc HE H V HV. set (g := (sqrt (INR n) * (E - 1))%R).
  assert (Hg : (0 <= g)%R) by (unfold g; apply Rmult_le_pos; [apply sqrt_pos|lra]).
  pose proof (flo_pos f Hf n) as Pf.
  set (xs := fun q => (nrm n (fun a => X (q + s * a)), 0%R) : CC).
  apply Rle_trans with (g * nrm s (hat (flo f n) c xs))%R.
  2:{ apply Rmult_le_compat_l; auto. eapply Rle_trans; [apply nrm_hat; auto|]. rewrite flo_flo. unfold xs. rewrite <- nrm_rows. apply Rle_refl. }
  rewrite nrm_rows. apply nrm_rel; auto. intros q Hq. rewrite cabs_hat by auto. unfold xs. rewrite !cabs_real by apply nrm_pos.
  specialize (H q Hq (fun k => V (q + s * k))).
  assert (HS : fft_spec inv n 1 (vscal c (fun a => X (q + s * a))) (fun k => V (q + s * k))).
  { intros r k Hr Hk. assert (r = 0) as -> by lia. replace (q + s * (0 + 1 * k)) with (q + s * k) by lia. rewrite HV by auto.
    apply DFT_ext. intros a _. unfold vscal. do 2 f_equal. lia. }
  specialize (H HS). rewrite Nat.mul_1_r in H. exact H.
Qed.
Lemma nrm_transpose r m D D2 : (forall p j, p < m -> j < r -> D (j + r * p) = D2 (p + m * j)) -> nrm (r * m) D = nrm (r * m) D2.
Proof.
  intros H. unfold nrm. f_equal. rewrite rsum_split_lo. replace (r * m) with (m * r) by lia. rewrite (rsum_split_hi r m).
  apply rsum_ext. intros p Hp. apply rsum_ext. intros j Hj. rewrite H; auto.
Qed.

Ltac dl xs H := let v := fresh "x" in destruct xs as [|v xs]; [try discriminate H|try discriminate H; dl xs H].
Lemma eight_form' {Op : Ops} inv N mode (w : C) xs : length xs = 8 ->
  eight_fn inv N mode (w :: xs) = twist (firstn 7 (powl (cj inv w))) (bf inv 8 (map (scalepz N mode) xs)).
Proof. intros H. unfold eight_fn. destruct inv; dl xs H; cbn [firstn powl cj]; reflexivity. Qed.

Section Six.
Variables (A : rounding) (bd : build).
Notation F := (fl A bd).
Notation ap := (approx A).
Notation tap := (tapx A).
Notation fft_err := (fft_err (psi A)).
Notation dif_err := (dif_err (psi A)).
Let f0 : (0 <= psi A)%R := psi0 A.

(** a scaled twiddle factor *)
Definition tapc (a b : nat) (c : R) (w' w : CC) : Prop := (cabs w <= c /\ cabs (@csub ROps w' w) <= (EE A a b - 1) * c)%R.
Lemma scalepz_tap N mode a b w' w : plen N -> tap a b w' w -> tapc (5 + a) b (sc N mode) (@scalepz F N mode w') (scalepz N mode w).
Proof.
  intros HP Hw. pose proof (plen_pos N HP) as HN. pose proof (sc_pos N mode HN) as Hc. pose proof (ta_mag A _ _ _ _ Hw) as M. destruct Hw as [H1 H2].
  pose proof (EE_ge1 A a b) as G. pose proof (cabs_pos w) as P1. pose proof (cabs_pos w') as P2. pose proof (U1 A) as HU. pose proof (psi_small A) as Ps. pose proof (u0 A) as Hu.
  assert (Hc31 : (/ 2147483648 <= sc N mode)%R).
  { pose proof (len31 N (plen_31 N HP)) as H31. assert (HI : (1 <= INR N)%R) by (change 1%R with (INR 1); apply le_INR; lia).
    destruct mode; cbn; unfold s1; cbn [sofZ ROps sdiv ssqrt smysqrt]; [lra| |]; rewrite <- INR_IZR_INZ; unfold Rdiv; rewrite Rmult_1_l; apply Rinv_le_contravar; try lra.
    - apply sqrt_lt_R0. lra.
    - apply Rle_trans with (INR N); [|auto]. pose proof (sqrt_ge1 N HN). pose proof (sqrt_def (INR N) ltac:(lra)). nra. }
  split; [rewrite scalepz_sc, cabs_scal, Rabs_right by lra; nra|].
  assert (E5 : (EE A (5 + a) b = (1 + uu A) ^ 5 * EE A a b)%R) by (unfold EE; rewrite pow_add; ring).
  assert (K : (cabs (@csub ROps (@cscal F (@scale_of F N mode) w') (cscal (sc N mode) w)) <= (EE A (5 + a) b - 1) * sc N mode)%R).
  { eapply Rle_trans; [apply (cabs_tri _ (@cscal ROps (sc N mode) w'))|].
    pose proof (fl_scal A bd _ _ 3 w' (rel_scale A bd N mode HP)) as Hf. rewrite (Rabs_right (sc N mode)) in Hf by lra.
    replace (csub (@cscal ROps (sc N mode) w') (@cscal ROps (sc N mode) w)) with (@cscal ROps (sc N mode) (csub w' w)) by (destruct w', w; csimp; ring).
    rewrite cabs_scal, Rabs_right by lra. set (c := sc N mode) in *. set (E := EE A a b) in *.
    assert (T1 : (c * cabs w' + psi A <= (1 + / 1024) * (E * c))%R).
    { assert (c * cabs w' <= E * c)%R by nra. assert (psi A <= / 1024 * c)%R by lra. assert (/ 1024 * c <= / 1024 * (E * c))%R by nra. lra. }
    assert (T2 : (((1 + uu A) ^ 4 - 1) * (1 + / 1024) <= (1 + uu A) ^ 5 - 1)%R).
    { pose proof (uu_range A) as [_ Hu8]. cbn [pow]. set (v := uu A) in *. clearbody v. nra. }
    assert (T3 : (((1 + uu A) ^ 4 - 1) * (c * cabs w' + psi A) <= ((1 + uu A) ^ 5 - 1) * (E * c))%R).
    { eapply Rle_trans; [apply Rmult_le_compat_l; [pose proof (pow_ge1 (1 + uu A) 4 HU); lra|exact T1]|].
      rewrite <- Rmult_assoc. apply Rmult_le_compat_r; [nra|exact T2]. }
    assert (T4 : (c * cabs (csub w' w) <= c * (E - 1))%R) by (apply Rmult_le_compat_l; lra). rewrite E5. fold E. nra. }
  rewrite scalepz_sc. destruct mode; [|exact K|exact K].
  cbn [scalepz]. change (sc N scale_1) with 1%R. rewrite cscal1, Rmult_1_r. eapply Rle_trans; [exact H2|]. pose proof (EE_mono A a b (5 + a) b ltac:(lia) ltac:(lia)). lra.
Qed.
Lemma tapc_mul a b c w' w x : (0 <= c)%R -> tapc a b c w' w ->
  (cabs (@csub ROps (@cmul F w' x) (cmul w x)) <= (EE A (3 + a) b - 1) * (c * cabs x + psi A))%R.
Proof.
  intros Hc [H1 H2]. pose proof (EE_ge1 A a b) as G. pose proof (cabs_pos x) as Px. pose proof (cabs_near w' w) as Hn. pose proof (psi0 A) as Ps.
  eapply Rle_trans; [apply (cabs_tri _ (cmul w' x))|]. pose proof (fl_mul A bd w' x) as Hf.
  replace (csub (cmul w' x) (cmul w x)) with (cmul (csub w' w) x) by ring. rewrite cabs_mul.
  assert (E3 : (EE A (3 + a) b = (1 + uu A) ^ 3 * EE A a b)%R) by (unfold EE; rewrite pow_add; ring). rewrite E3.
  pose proof (pow_ge1 (1 + uu A) 3 (U1 A)) as HU. set (p := ((1 + uu A) ^ 3)%R) in *. set (E := EE A a b) in *.
  assert (T1 : (cabs w' * cabs x <= E * c * cabs x)%R) by (apply Rmult_le_compat_r; auto; lra).
  assert (T2 : (cabs w' * cabs x + psi A <= E * (c * cabs x + psi A))%R) by nra.
  assert (T3 : ((p - 1) * (cabs w' * cabs x + psi A) <= (p - 1) * (E * (c * cabs x + psi A)))%R) by (apply Rmult_le_compat_l; lra).
  assert (T4 : (cabs (csub w' w) * cabs x <= (E - 1) * c * cabs x)%R) by (apply Rmult_le_compat_r; auto). nra.
Qed.

Lemma Wt_apx a N : pow2 N -> radix a <= N -> (Z.of_nat N <= 2 ^ 31)%Z -> TabApx A false a N (@Wt_T F (radix a) N).
Proof.
  intros Hp Hle HN. destruct (pow2_div (radix a) N (radix_pow2 a) Hp Hle) as (q & EN & Hq & Eq).
  assert (Hr0 : 0 < radix a) by (destruct a; cbn; lia).
  intros p k Hpq Hk. rewrite Eq in *. rewrite (Wt_lo (radix a) N q) by auto. rewrite (Wt_hi (radix a) N q) by auto.
  assert (tap 0 1 (@tw_val F N k p) (W false N (k * p))); [|split; auto].
  assert (k * p <= N) by nia. assert (k <= N) by nia. assert (p <= N) by nia. apply tw_val_ap; try lia.
Qed.
Lemma row_err inv n k (X : nat -> CC) : n = 2 ^ k -> 1 <= k -> plen n ->
  fft_err inv n 1 1 (EE A (k * 15) k) X (@rowT F inv n (@Wt_T F 8 n) X).
Proof.
  intros En Hk HN. assert (Hp : pow2 n) by (exists k; auto).
  pose proof (pow_ff_err A bd false DIF8 inv scale_1 n n k 1 (@Wt_T F 8 n) X (le_n _) Hk En (or_introl eq_refl)) as H.
  rewrite Nat.mul_1_r in H. cbn [pa pb] in H. rewrite Nat.mul_1_r in H. apply H; auto.
  intros Hlt. apply (Wt_apx DIF8); auto; [apply Nat.lt_le_incl; exact Hlt|apply plen_31; auto].
Qed.

Section S6.
Variables (n m k : nat).
Hypothesis Hn : n = 2 * m.
Hypothesis Hm : 0 < m.
Hypothesis H12 : n <= 2 ^ 12.
Hypothesis Hk : n = 2 ^ k.
Notation N := (n * n).

Lemma wsel_ap r c : r < n -> c < n -> tap 0 1 (@wnxn_T F n (wsel (n / 2) r c)) (W false N (r * c)).
Proof.
  intros Hr Hc. assert (E2 : n / 2 = m) by (rewrite Hn; apply half_2). rewrite E2.
  assert (Hb : (Z.of_nat N <= 2 ^ 31)%Z).
  { assert (HZ : (Z.of_nat n <= 2 ^ 12)%Z) by (apply inj_le in H12; rewrite Nat2Z.inj_pow in H12; exact H12). rewrite Nat2Z.inj_mul. nia. }
  destruct (bit_cases r) as (e & He & Er). destruct (bit_cases c) as (d & Hd & Ec).
  set (u := r / 2) in *. set (v := c / 2) in *. clearbody u v.
  assert (Hpos : 0 < N) by nia.
  assert (Hd4 : forall a b, a < 2 -> b < 2 -> (a + 2 * b) mod 2 = a /\ (a + 2 * b) / 2 = b) by (intros a b Ha Hb'; split; [apply mod_lin|apply div_lin]; auto).
  assert (Hrc : r * c <= N) by nia. assert (Hr2 : r <= N) by nia. assert (Hc2 : c <= N) by nia.
  destruct (le_lt_dec u v) as [H|H].
  - assert (ET : wnxn_T (Op := F) n (wsel m r c) = tw_val (Op := F) (n * n) c r).
    { rewrite Er, Ec. rewrite wsel_up by auto. rewrite <- Nat.add_assoc. rewrite (wnxn_T_at n m Hn Hm H12 u v (d + 2 * e)) by lia.
      destruct (Hd4 d e Hd He) as [-> ->]. reflexivity. }
    rewrite ET. rewrite (Nat.mul_comm r c). apply tw_val_ap; lia.
  - assert (ET : wnxn_T (Op := F) n (wsel m r c) = tw_val (Op := F) (n * n) r c).
    { rewrite Er, Ec. rewrite (wsel_lo m v u e d) by auto. rewrite <- Nat.add_assoc. rewrite (wnxn_T_at n m Hn Hm H12 v u (e + 2 * d)) by lia.
      destruct (Hd4 e d He Hd) as [-> ->]. reflexivity. }
    rewrite ET. apply tw_val_ap; lia.
Qed.
Lemma N31 : (Z.of_nat N <= 2 ^ 31)%Z.
Proof.
  assert (HZ : (Z.of_nat n <= 2 ^ 12)%Z) by (apply inj_le in H12; rewrite Nat2Z.inj_pow in H12; exact H12). rewrite Nat2Z.inj_mul. nia.
Qed.
Lemma n31 : (Z.of_nat n <= 2 ^ 31)%Z.
Proof.
  assert (HZ : (Z.of_nat n <= 2 ^ 12)%Z) by (apply inj_le in H12; rewrite Nat2Z.inj_pow in H12; exact H12). lia.
Qed.
Lemma k1 : 1 <= k.
Proof. destruct k; [cbn in Hk; lia|lia]. Qed.

Lemma kP : k <= 12.
Proof. apply (Nat.pow_le_mono_r_iff 2); [lia|]. rewrite <- Hk. exact H12. Qed.
Lemma NP : plen N.
Proof. exists (k + k). pose proof kP. split; [lia|]. rewrite Nat.pow_add_r, <- Hk. reflexivity. Qed.
Lemma nP : plen n.
Proof. exists k. pose proof kP. split; [lia|exact Hk]. Qed.

Theorem sixF_err inv mode (X : nat -> CC) :
  fft_err inv N 1 (sc N mode) (EE A (k * 15 + (8 + k * 15)) (k + (1 + k))) X (@sixF F inv N mode n (@wnxn_T F n) (@Wt_T F 8 n) X).
Proof.
  set (R' := fun e => @rowsF F n (@rowT F inv n (@Wt_T F 8 n)) (@trF F n X) (cell2 n (e / n) (e mod n))).
  set (Y := fun e => @mulF F inv N mode n (@wnxn_T F n) (@rowsF F n (@rowT F inv n (@Wt_T F 8 n)) (@trF F n X)) (cell2 n (e / n) (e mod n))).
  set (Z := @sixF F inv N mode n (@wnxn_T F n) (@Wt_T F 8 n) X).
  pose proof k1 as Hk1. pose proof NP as HNP. pose proof nP as HnP. pose proof N31 as HN31.
  assert (Hn0 : 0 < n) by lia. assert (HN0 : 0 < N) by nia. pose proof (sc_pos N mode HN0) as Hc.
  (* first row transforms *)
  assert (HR : fft_err inv n n 1 (EE A (k * 15) k) X R').
  { apply fft_err_rows; [exact f0|lra|apply EE_ge1|]. intros q Hq.
    eapply fft_err_extX; [|eapply fft_err_ext; [|apply (row_err inv n k (fun j => @trF F n X (q * n + j))); auto]].
    - intros j Hj. cbv beta. rewrite Nat.mul_1_r in Hj. replace (q * n + j) with (cell2 n j q) by (unfold cell2; lia). rewrite (@trF_cell F) by auto. unfold cell2. f_equal. lia.
    - intros j Hj. rewrite Nat.mul_1_r in Hj. unfold R'. rewrite div_lin, mod_lin by auto. unfold rowsF. rewrite cell2_div, cell2_mod by auto. reflexivity. }
  (* twiddle factors *)
  assert (H1 : dif_err inv n n 1 (sc N mode) (EE A (8 + k * 15) (1 + k)) X Y).
  { intros V HV. rewrite Nat.mul_1_r.
    set (R0 := fftS inv n n X). pose proof (fftS_ok inv n n X) as HR0. fold R0 in HR0.
    assert (HR1 : fft_spec inv n n (vscal 1 X) R0).
    { intros q j Hq Hj. rewrite HR0 by auto. apply DFT_ext. intros a _. unfold vscal. symmetry. apply cscal1. }
    specialize (HR R0 HR1). pose proof (fft_norm inv n n X R0 Hn0 HR0) as HNR.
    set (tw := fun e => @cscal ROps (sc N mode) (W inv N (e mod n * (e / n)))).
    rewrite (nrm_transpose n n (vsub Y V) (fun e => vsub Y V (e / n + n * (e mod n)))).
    2:{ intros p j Hp Hj. rewrite div_lin, mod_lin by auto. reflexivity. }
    change (fun e => vsub Y V (e / n + n * (e mod n))) with (vsub (fun e => Y (e / n + n * (e mod n))) (fun e => V (e / n + n * (e mod n)))).
    assert (EE2 : (EE A (8 + k * 15) (1 + k) = EE A 8 1 * EE A (k * 15) k)%R) by (rewrite EE_mul; reflexivity). rewrite EE2.
    replace (sqrt (INR n) * (EE A 8 1 * EE A (k * 15) k - 1) * (sc N mode * nrm N X + flo (psi A) N))%R with ((EE A 8 1 * EE A (k * 15) k - 1) * (sc N mode * (sqrt (INR n) * nrm N X) + sqrt (INR n) * flo (psi A) N))%R by ring.
    pose proof (sc_le1 N mode HN0) as Hc1. pose proof (flo_pos (psi A) f0 N) as Pf. pose proof (sqrt_ge1 n Hn0) as Sn.
    apply (point_err (psi A) f0 N (sc N mode) (EE A 8 1) tw R0 R'); [lra|apply EE_ge1|apply EE_ge1|apply Rmult_le_pos; [apply sqrt_pos|apply nrm_pos]|nra| | | | |].
    - intros e He. unfold tw. rewrite cabs_scal, cabs_W, Rabs_right by lra. ring.
    - intros e He. destruct (eucl n e Hn0) as (p & j & Hp & ->). assert (Hj : j < n) by nia. unfold tw. rewrite !div_lin, !mod_lin by auto.
      unfold Y, R'. rewrite !div_lin, !mod_lin by auto. rewrite (@mulF_cell F) by auto.
      set (x := rowsF n _ _ _).
      assert (Hsw : tapc 5 1 (sc N mode) (@sw F inv N mode (@wnxn_T F n (wsel (n / 2) p j))) (@cscal ROps (sc N mode) (W inv N (p * j)))).
      { unfold sw. rewrite <- scalepz_sc. pose proof (scalepz_tap N mode 0 1 _ _ HNP (ta_cj A bd 0 1 inv _ _ (wsel_ap p j Hp Hj))) as G.
        rewrite cj_W in G. exact G. }
      exact (tapc_mul 5 1 _ _ _ x (Rlt_le _ _ Hc) Hsw).
    - intros e He. destruct (eucl n e Hn0) as (p & j & Hp & ->). assert (Hj : j < n) by nia. unfold tw. rewrite !div_lin, !mod_lin by auto.
      replace (j + n * p) with (0 + 1 * (j + n * p)) by lia. rewrite HV by (auto; lia). rewrite HR0 by auto. unfold DFT.
      rewrite (Nat.mul_comm p j).
      assert (ES : csum n (fun i => cmul (vscal (sc N mode) X (0 + 1 * p + n * 1 * i)) (W inv n (i * j))) = @cscal ROps (sc N mode) (csum n (fun i => cmul (X (p + n * i)) (W inv n (i * j))))).
      { rewrite <- csum_cscal. apply csum_ext. intros i Hi. rewrite cscal_cmul_l. unfold vscal. do 3 f_equal. lia. }
      rewrite ES. csimp; ring.
    - apply Req_le. exact HNR.
    - rewrite Rmult_1_l in HR. eapply Rle_trans; [exact HR|]. apply Req_le. ring. }
  (* second row transforms *)
  assert (H2 : fft_err inv n (n * 1) 1 (EE A (k * 15) k) Y Z).
  { rewrite Nat.mul_1_r. apply fft_err_rows; [exact f0|lra|apply EE_ge1|]. intros r Hr.
    eapply fft_err_extX; [|eapply fft_err_ext; [|apply (row_err inv n k (fun j => @mulF F inv N mode n (@wnxn_T F n) (@rowsF F n (@rowT F inv n (@Wt_T F 8 n)) (@trF F n X)) (r * n + j))); auto]].
    - intros j Hj. rewrite Nat.mul_1_r in Hj. unfold Y. rewrite div_lin, mod_lin by auto. f_equal. unfold cell2. lia.
    - intros c Hc'. rewrite Nat.mul_1_r in Hc'. unfold Z, sixF. replace (r + n * c) with (cell2 n r c) by (unfold cell2; lia). rewrite (@trF_cell F) by auto.
      unfold rowsF at 2. rewrite cell2_div, cell2_mod by auto. reflexivity. }
  pose proof (dif_compose_err (psi A) f0 inv n n 1 (sc N mode) 1%R _ _ X Y Z Hn0 Hn0 ltac:(lia) (Rlt_le _ _ Hc) (conj Rle_0_1 (Rle_refl 1%R)) (EE_ge1 _ _ _) (EE_ge1 _ _ _) H1 H2) as H3.
  rewrite EE_mul, Rmult_1_r in H3. replace (k * 15 + (8 + k * 15)) with (8 + k * 15 + k * 15) by lia. replace (k + (1 + k)) with (1 + k + k) by lia. exact H3.
Qed.
End S6.

Theorem eightF_err n m k N inv mode (X : nat -> CC) : n = 2 * m -> 0 < m -> n <= 2 ^ 10 -> n = 2 ^ k -> N = 8 * (n * n) ->
  fft_err inv N 1 (sc N mode) (EE A (3 * 31 + (k * 15 + (8 + k * 15))) (3 * 7 + (k + (1 + k)))) X (@eightF F inv N mode n (@Wr1_T F N) (@wnxn_T F n) (@Wt_T F 8 n) X).
Proof.
  intros Hn Hm H10 Hp HN. assert (H12 : n <= 2 ^ 12) by (eapply Nat.le_trans; [exact H10|apply Nat.pow_le_mono_r; lia]).
  assert (HNP : plen N).
  { exists (3 + (k + k)). split.
    - assert (k <= 10) by (apply (Nat.pow_le_mono_r_iff 2); [lia|]; rewrite <- Hp; exact H10). lia.
    - rewrite HN, !Nat.pow_add_r, <- Hp. reflexivity. }
  set (N1 := n * n) in *. assert (Hpos : 0 < N1) by (unfold N1; nia).
  assert (HN31 : (Z.of_nat N <= 2 ^ 31)%Z).
  { assert (HZ : (Z.of_nat n <= 2 ^ 12)%Z) by (apply inj_le in H12; rewrite Nat2Z.inj_pow in H12; exact H12). rewrite HN. unfold N1. rewrite !Nat2Z.inj_mul. nia. }
  assert (HN0 : 0 < N) by lia. pose proof (sc_pos N mode HN0) as Hc.
  set (B := @eightB F inv N mode N1 (@Wr1_T F N) X).
  set (Y := fun e => B (e / 8 + N1 * (e mod 8))).
  set (Z := @eightF F inv N mode n (@Wr1_T F N) (@wnxn_T F n) (@Wt_T F 8 n) X).
  assert (H1 : dif_err inv 8 N1 1 (sc N mode) (EE A (3 * 31) (3 * 7)) X Y).
  { rewrite <- EE_pow, <- EE_g. apply dif_pass_err; [exact f0|lia|lra|apply EE_g0|].
    intros p q j Hp' Hq Hj. assert (q = 0) by lia. subst q. replace (0 + 1 * (j + 8 * p)) with (j + 8 * p) by lia.
    unfold Y. rewrite div_lin, mod_lin by auto. unfold B, eightB. rewrite div_lin, mod_lin by auto.
    rewrite eight_form' by reflexivity. rewrite map_map.
    pose proof (powl_ap A bd _ _ 7 (ta_cj A bd 0 1 inv _ _ (Wr1_ap A bd N p HN0 HN31 ltac:(lia))) ltac:(lia)) as Hw. rewrite cj_W in Hw.
    assert (R8 : rad4 8) by (unfold rad4; auto).
    pose proof (bf_ap A bd inv 8 _ _ _ _ _ R8 (lap_scal A bd N mode (fun i => X (p + N1 * i)) (seq 0 8) HNP) eq_refl) as Hb.
    pose proof (twist_ap A bd _ _ _ _ _ _ _ _ _ Hw Hb) as Ho.
    pose proof (bf_dft inv 8 ltac:(unfold ends; auto)) as Hbf. 
    assert (EV : twist (wpows (W inv N p) 7) (bf inv 8 (map (fun i => scalepz N mode (X (p + N1 * i))) (seq 0 8))) =
      map (fun j => cmul (cpow (W inv N p) j) (csum 8 (fun i => cmul (nth i (map (fun i => scalepz N mode (X (p + N1 * i))) (seq 0 8)) c0) (W inv 8 (i * j))))) (seq 0 8)).
    { apply (twist_bfly inv 8); auto. lia. }
    cbv beta in Ho. rewrite EV in Ho.
    apply (louts_nth A bd _ _ _ _ _ j) in Ho; [|rewrite map_length, seq_length; auto]. rewrite nth_ms in Ho by auto.
    rewrite rs_seq in Ho. destruct Ho as [_ Ho]. rewrite cpow_Wp in Ho.
    assert (E1 : cmul (W inv N (j * p)) (csum 8 (fun i => cmul (nth i (map (fun i => scalepz N mode (X (p + N1 * i))) (seq 0 8)) c0) (W inv 8 (i * j))))
      = @cscal ROps (sc N mode) (cmul (W inv (8 * N1) (j * p)) (csum 8 (fun i => cmul (X (0 + 1 * (p + N1 * i))) (W inv 8 (i * j)))))).
    { rewrite <- HN. transitivity (cmul (W inv N (j * p)) (@cscal ROps (sc N mode) (csum 8 (fun i => cmul (X (0 + 1 * (p + N1 * i))) (W inv 8 (i * j)))))).
      - f_equal. rewrite <- csum_cscal. apply csum_ext. intros i Hi. rewrite nth_ms by auto. rewrite scalepz_sc, cscal_cmul_l. do 3 f_equal. lia.
      - csimp; ring. }
    rewrite E1 in Ho.
    assert (E2 : rsum 8 (fun i => sc N mode * cabs (X (p + N1 * i)%nat) + psi A)%R = rsum 8 (fun i => sc N mode * cabs (X (0 + 1 * (p + N1 * i))%nat) + psi A)%R) by (apply rsum_ext; intros i Hi; do 4 f_equal; lia).
    rewrite E2 in Ho. exact Ho. }
  assert (H2 : fft_err inv N1 (8 * 1) 1 (EE A (k * 15 + (8 + k * 15)) (k + (1 + k))) Y Z).
  { rewrite Nat.mul_1_r. apply fft_err_rows; [exact f0|lra|apply EE_ge1|]. intros r Hr.
    pose proof (sixF_err n m k Hn Hm H12 Hp inv scale_1 (fun j => B (r * N1 + j))) as H. rewrite sc_1 in H. fold N1 in H.
    eapply fft_err_extX; [|eapply fft_err_ext; [|exact H]].
    - intros j Hj. rewrite Nat.mul_1_r in Hj. cbv beta. unfold Y. rewrite div_lin, mod_lin by auto. f_equal. lia.
    - intros c Hc'. rewrite Nat.mul_1_r in Hc'. unfold Z, eightF. cbv zeta. fold N1. fold B. unfold eightT. rewrite div_lin, mod_lin by auto.
      unfold rowsF at 1. replace (c + r * N1) with (c + N1 * r) by lia. rewrite div_lin, mod_lin by auto. reflexivity. }
  pose proof (dif_compose_err (psi A) f0 inv 8 N1 1 (sc N mode) 1%R _ _ X Y Z ltac:(lia) Hpos ltac:(lia) (Rlt_le _ _ Hc) (conj Rle_0_1 (Rle_refl 1%R)) (EE_ge1 _ _ _) (EE_ge1 _ _ _) H1 H2) as H3.
  rewrite EE_mul, Rmult_1_r in H3. rewrite <- HN in H3. exact H3.
Qed.

(** ** engines *)
(** relative error of a result, in the Euclidean norm *)
Definition res_err (N : nat) (k : meth) (E : R) (X Z' : nat -> CC) : Prop :=
  (nrm N (vsub Z' (transform k N X)) <= (E - 1) * (nrm N (transform k N X) + psi A * INR N))%R.
Lemma fft_res N k E X Z' : 0 < N -> fft_err (meth_inv k) N 1 (sc N (meth_mode k)) E X Z' -> res_err N k E X Z'.
Proof.
  intros HN H. assert (HT : fft_spec (meth_inv k) N 1 (vscal (sc N (meth_mode k)) X) (transform k N X)).
  { intros q i Hq Hi. assert (q = 0) as -> by lia. replace (0 + 1 * i) with i by lia. unfold transform. rewrite <- sc_factor by auto. rewrite <- DFT_cscal.
    apply DFT_ext. intros j _. unfold vscal. do 2 f_equal. lia. }
  specialize (H _ HT). pose proof (fft_norm _ _ _ _ _ HN HT) as HNo. rewrite nrm_vscal in HNo by (apply Rlt_le, sc_pos; auto).
  rewrite !Nat.mul_1_r in *. unfold res_err. rewrite HNo. eapply Rle_trans; [exact H|]. apply Req_le. unfold flo. rewrite <- (sqrt_def (INR N)) at 4 by apply pos_INR. ring.
Qed.
Lemma fft_err_cost inv N s c a b a' b' X Z : (0 <= c)%R -> a <= a' -> b <= b' -> fft_err inv N s c (EE A a b) X Z -> fft_err inv N s c (EE A a' b') X Z.
Proof. intros Hc Ha Hb. apply fft_err_mono; [exact f0|auto|]. apply EE_mono; auto. Qed.

Theorem pow_F_err a n k (X : nat -> CC) : 1 <= n <= 24 ->
  res_err (2 ^ n) k (EE A (n * 60) (n * 15)) X (@pow_F F a n k X).
Proof.
  intros [Hn Hn24]. assert (HNP : plen (2 ^ n)) by (exists n; auto). pose proof (plen_31 _ HNP) as HN. pose proof (pow2_pos n) as Hpos. apply fft_res; auto. unfold pow_F. cbv zeta.
  assert (Hp : pow2 (2 ^ n)) by (eexists; reflexivity).
  apply (fft_err_cost _ _ _ _ (n * pa (pow_par a (2 ^ n))) (n * pb (pow_par a (2 ^ n)))); [apply Rlt_le, sc_pos; auto|destruct (pow_par a (2 ^ n)); cbn [pa]; nia|destruct (pow_par a (2 ^ n)); cbn [pb]; nia|].
  set (N := 2 ^ n) in *.
  pose proof (pow_ff_err A bd (pow_par a N) a (meth_inv k) (meth_mode k) N N n 1 (@pow_T F a N) X (le_n _) Hn eq_refl (or_introl eq_refl)) as H.
  rewrite !Nat.mul_1_r in H. apply H; auto. intros Hlt. unfold pow_T.
  assert (El : N <=? radix a = false) by (apply Nat.leb_gt; auto). rewrite El. destruct (pow_par a N).
  - intros p j Hp' Hj. apply Wr1_ap; auto. pose proof (Nat.div_le_upper_bound N (radix a) N ltac:(lia) ltac:(nia)). lia.
  - apply Wt_apx; auto. lia.
Qed.
Theorem six_F_err n k (X : nat -> CC) : 1 <= n <= 24 -> res_err (2 ^ n) k (EE A (n * 60) (n * 15)) X (@six_F F n k X).
Proof.
  intros Hn. pose proof (pow2_pos n) as Hpos. apply fft_res; auto. unfold six_F. cbv zeta.
  pose proof (sc_pos (2 ^ n) (meth_mode k) Hpos) as Hc. apply Rlt_le in Hc.
  assert (HNP : plen (2 ^ n)) by (exists n; split; [lia|reflexivity]). pose proof (plen_31 _ HNP) as Hb.
  destruct (Nat.leb_spec n 5) as [H5|H5]; [|destruct (Nat.odd n) eqn:Eo].
  - pose proof (pow_ff_err A bd false DIF8 (meth_inv k) (meth_mode k) (2 ^ n) (2 ^ n) n 1 (@Wt_T F 8 (2 ^ n)) X (le_n _) ltac:(lia) eq_refl (or_introl eq_refl)) as H.
    rewrite !Nat.mul_1_r in H. eapply fft_err_cost; [auto| | |apply H; auto].
    + cbn [pa]; lia.
    + cbn [pb]; lia.
    + intros Hlt. apply (Wt_apx DIF8); auto. eexists; reflexivity. apply Nat.lt_le_incl. exact Hlt.
  - destruct (odd_half n Eo) as (h & E & Eh). rewrite Eh.
    destruct (pow_half (h - 1) ltac:(lia)) as (q & Em & Hm).
    eapply fft_err_cost; [auto| | |apply (eightF_err _ q (h - 1)); auto].
    + lia.
    + lia.
    + apply Nat.pow_le_mono_r; lia.
    + change 8 with (2 ^ 3). rewrite <- !Nat.pow_add_r. f_equal. lia.
  - destruct (even_half n Eo) as (h & E & Eh). rewrite Eh.
    destruct (pow_half h ltac:(lia)) as (q & Em & Hm).
    assert (EN : 2 ^ n = 2 ^ h * 2 ^ h) by (rewrite <- Nat.pow_add_r; f_equal; lia).
    rewrite EN in *. eapply fft_err_cost; [auto| | |apply (sixF_err _ q h); auto].
    + lia.
    + lia.
    + apply pow_le_12. lia.
Qed.
End Six.
