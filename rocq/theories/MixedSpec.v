(** * The mixed-radix FFT computes the DFT (exact arithmetic) *)

From Coq Require Import Reals List Arith ZArith Bool Lia.
From Verif Require Import Scalar RealOps Spec DftFacts Mem Lanes Butterfly ButterflyFacts Stage CoreStage ModelMixed MixedStage FactorFacts MixedDrive MixedRun FftSpec.
Import ListNotations.
Local Open Scope nat_scope.

(** the table of twiddle factors *)
Definition Wtab (N : nat) (T : nat -> CC) : Prop := forall p, p <= N -> T p = W false N p.

Lemma cpow_Wp inv N p j : cpow (W inv N p) j = W inv N (j * p).
Proof. induction j as [|j IH]; [symmetry; apply W_0|]. cbn [cpow]. rewrite IH, <- W_add. f_equal. Qed.

(** table look-ups of the passes *)
Section Look.
Variables (N s n : nat) (T : nat -> CC).
Hypothesis HT : Wtab N T.
Hypothesis HN : N = s * n.
Hypothesis Hs : 0 < s.
Hypothesis Hn : 0 < n.
Lemma look_fwd e : e <= n -> T (s * e) = W false n e.
Proof. intros He. rewrite HT by nia. rewrite HN. apply W_scale; auto. Qed.
Lemma look_inv e : e <= n -> T (N - s * e) = W true n e.
Proof.
  intros He. rewrite HT by lia. rewrite W_rev by nia. rewrite HN. apply W_scale; auto.
Qed.
End Look.

Definition lk (inv : bool) (N e : nat) : nat := if inv then N - e else e.
Lemma look inv N s n T e : Wtab N T -> N = s * n -> 0 < s -> 0 < n -> e <= n -> T (lk inv N (s * e)) = W inv n e.
Proof. intros. destruct inv; [eapply look_inv; eauto|eapply look_fwd; eauto]. Qed.

(** ** radix-8/4/2/5/3 passes *)
Lemma is_core_dif inv r m s T X (f : list CC -> list CC) (tw : nat -> list nat) :
  0 < r -> 0 < m -> 0 < s ->
  (forall p, p < m -> is_core inv r f (map T (tw p)) (W inv (r * m) p)) ->
  dif_spec inv r m s X (dif_fun r m s tw f T X).
Proof.
  intros Hr Hm Hs H p q j Hp Hq Hj. rewrite dif_fun_at by auto.
  rewrite (H p Hp) by (rewrite map_length, seq_length; auto).
  rewrite nth_ms by auto. rewrite cpow_Wp. f_equal.
  apply csum_ext. intros i Hi. rewrite nth_ms by auto. reflexivity.
Qed.

(** what the twiddle preparation of each kernel yields *)
Lemma wpows_1 w : wpows w 1 = [w].
Proof. unfold wpows. cbn. f_equal. ring. Qed.
Lemma wpows_S w n : wpows w (S n) = wpows w n ++ [cpow w (S n)].
Proof. unfold wpows. rewrite seq_S, map_app. reflexivity. Qed.

Ltac pows := unfold wpows; cbn [seq map cpow]; repeat (apply (f_equal2 cons); [ring|]); reflexivity.

Lemma core2_ok inv w : is_core inv 2 core2_f [w] w.
Proof.
  intros xs Hl. cbn [core2_f app]. rewrite <- (twist_bfly inv 2 b2 w xs); auto; try lia; try apply b2_dft.
  f_equal. change (2 - 1) with 1. rewrite wpows_1. reflexivity.
Qed.
Lemma fcore4v_ok w w2 w3 : w2 = cpow w 2 -> w3 = cpow w 3 -> is_core false 4 fwdcore4_fv [w; w2; w3] w.
Proof.
  intros -> -> xs Hl. cbn [fwdcore4_fv app]. rewrite <- (twist_bfly false 4 f4 w xs); auto; try lia; try apply f4_dft.
  f_equal. change (4 - 1) with 3. pows.
Qed.
Lemma icore4v_ok w w2 w3 : w2 = cpow w 2 -> w3 = cpow w 3 -> is_core true 4 invcore4_fv [w; w2; w3] w.
Proof.
  intros -> -> xs Hl. cbn [invcore4_fv app]. rewrite <- (twist_bfly true 4 i4 w xs); auto; try lia; try apply i4_dft.
  f_equal. change (4 - 1) with 3. pows.
Qed.
Lemma fcore4s_ok w : is_core false 4 fwdcore4_fs [w] w.
Proof.
  intros xs Hl. cbn [fwdcore4_fs app]. cbv zeta. rewrite <- (twist_bfly false 4 f4 w xs); auto; try lia; try apply f4_dft.
  f_equal. change (4 - 1) with 3. pows.
Qed.
Lemma icore4s_ok w : is_core true 4 invcore4_fs [w] (cconj w).
Proof.
  intros xs Hl. cbn [invcore4_fs app]. cbv zeta. rewrite <- (twist_bfly true 4 i4 (cconj w) xs); auto; try lia; try apply i4_dft.
  f_equal. change (4 - 1) with 3. pows.
Qed.
Lemma fcore8v_ok w w2 w3 : w2 = cpow w 2 -> w3 = cpow w 3 -> is_core false 8 fwdcore8_fv [w; w2; w3] w.
Proof.
  intros -> -> xs Hl. cbn [fwdcore8_fv app]. cbv zeta. rewrite <- (twist_bfly false 8 f8 w xs); auto; try lia; try apply f8_dft.
  f_equal. change (8 - 1) with 7. pows.
Qed.
Lemma icore8v_ok w w2 w3 : w2 = cpow w 2 -> w3 = cpow w 3 -> is_core true 8 invcore8_fv [w; w2; w3] w.
Proof.
  intros -> -> xs Hl. cbn [invcore8_fv app]. cbv zeta. rewrite <- (twist_bfly true 8 i8 w xs); auto; try lia; try apply i8_dft.
  f_equal. change (8 - 1) with 7. pows.
Qed.
Lemma fcore8s_ok w : is_core false 8 fwdcore8_fs [w] w.
Proof.
  intros xs Hl. cbn [fwdcore8_fs app]. cbv zeta. rewrite <- (twist_bfly false 8 f8 w xs); auto; try lia; try apply f8_dft.
  f_equal. change (8 - 1) with 7. pows.
Qed.
Lemma icore8s_ok w : is_core true 8 invcore8_fs [w] (cconj w).
Proof.
  intros xs Hl. cbn [invcore8_fs app]. cbv zeta. rewrite <- (twist_bfly true 8 i8 (cconj w) xs); auto; try lia; try apply i8_dft.
  f_equal. change (8 - 1) with 7. pows.
Qed.
Lemma core5_ok inv w : is_core inv 5 core5_f [W inv 5 1; w] w.
Proof.
  intros xs Hl. cbn [core5_f app]. cbv zeta. rewrite <- (twistr_bfly inv 5 (b5 (W inv 5 1)) w xs); auto; try lia; try apply b5_dft.
  f_equal. change (5 - 1) with 4. pows.
Qed.
Lemma core3_ok inv w : is_core inv 3 core3_f [W inv 3 1; w] w.
Proof.
  intros xs Hl. cbn [core3_f app]. cbv zeta. rewrite <- (twistr_bfly inv 3 (b3 (W inv 3 1)) w xs); auto; try lia; try apply b3_dft.
  f_equal. change (3 - 1) with 2. pows.
Qed.

Lemma bfly_core inv r f tws b : is_bfly inv r b -> (forall xs, f (tws ++ xs) = b xs) -> is_core inv r f tws c1.
Proof.
  intros Hb Hf xs Hl. rewrite Hf, (Hb xs Hl). apply map_ext. intros j. set (u := csum _ _).
  assert (E : cpow c1 j = c1). { clear. induction j as [|j IH]; auto. cbn [cpow]. rewrite IH. ring. }
  rewrite E. ring.
Qed.

Lemma cF_spec inv r m s T X : radix r -> 0 < m -> 0 < s -> Wtab (r * m * s) T ->
  dif_spec inv r m s X (cF inv r m s T X).
Proof.
  intros Hr Hm Hs HT. pose proof (radix_pos r Hr) as Hr0. apply is_core_dif; auto. intros p Hp.
  assert (Hp1 : p <= r * m) by nia.
  assert (HN : r * m * s = s * (r * m)) by lia. assert (Hrm : 0 < r * m) by nia.
  assert (L : forall e, e <= r * m -> T (lk inv (r * m * s) (s * e)) = W inv (r * m) e) by (intros; eapply look; eauto).
  assert (L1 : s = 1 -> T p = W false (r * m) p).
  { intros Es. specialize (HT p). rewrite Es, Nat.mul_1_r in HT. apply HT. auto. }
  assert (P2 : W inv (r * m) (2 * p) = cpow (W inv (r * m) p) 2) by (rewrite cpow_Wp; auto).
  assert (P3 : W inv (r * m) (3 * p) = cpow (W inv (r * m) p) 3) by (rewrite cpow_Wp; auto).
  unfold k_f, k_tw, ctw, cf, stw.
  destruct Hr as [->|[->|[->|[->| ->]]]]; cbn [is2].
  - destruct (Nat.leb_spec 2 s) as [H2|H2].
    + assert (E1 := L (1 * p) ltac:(nia)). assert (E2 := L (2 * p) ltac:(nia)). assert (E3 := L (3 * p) ltac:(nia)).
      replace (s * (1 * p)) with (1 * (s * p)) in E1 by lia. replace (s * (2 * p)) with (2 * (s * p)) in E2 by lia. replace (s * (3 * p)) with (3 * (s * p)) in E3 by lia.
      rewrite Nat.mul_1_l in E1. rewrite P2 in E2. rewrite P3 in E3.
      destruct inv; cbn [k_tv k_fv map]; rewrite ?Nat.mul_1_l in *; cbn [lk] in *; rewrite E1, E2, E3; [apply icore8v_ok|apply fcore8v_ok]; auto.
    + assert (Es : s = 1) by lia. cbn [k_ts k_fs map]. rewrite (L1 Es). destruct inv; [|apply fcore8s_ok].
      change true with (negb false). rewrite <- W_conj. apply icore8s_ok.
  - destruct (Nat.leb_spec 2 s) as [H2|H2].
    + assert (E1 := L (1 * p) ltac:(nia)). assert (E2 := L (2 * p) ltac:(nia)). assert (E3 := L (3 * p) ltac:(nia)).
      replace (s * (1 * p)) with (1 * (s * p)) in E1 by lia. replace (s * (2 * p)) with (2 * (s * p)) in E2 by lia. replace (s * (3 * p)) with (3 * (s * p)) in E3 by lia.
      rewrite Nat.mul_1_l in E1. rewrite P2 in E2. rewrite P3 in E3.
      destruct inv; cbn [k_tv k_fv map]; rewrite ?Nat.mul_1_l in *; cbn [lk] in *; rewrite E1, E2, E3; [apply icore4v_ok|apply fcore4v_ok]; auto.
    + assert (Es : s = 1) by lia. cbn [k_ts k_fs map]. rewrite (L1 Es). destruct inv; [|apply fcore4s_ok].
      change true with (negb false). rewrite <- W_conj. apply icore4s_ok.
  - assert (E1 := L p Hp1). destruct (Nat.leb_spec 2 s) as [H2|H2].
    + destruct inv; cbn [k_tv k_fv map]; cbn [lk] in E1; rewrite E1; apply core2_ok.
    + assert (Es : s = 1) by lia. subst s. rewrite Nat.mul_1_l in E1. destruct inv; cbn [k_ts k_fs map]; cbn [lk] in E1; rewrite E1; apply core2_ok.
  - assert (E1 := L p Hp1).
    assert (Ed : 5 * m * s / 5 = m * s) by (replace (5 * m * s) with (m * s * 5) by lia; apply Nat.div_mul; lia).
    unfold k_tv, k_fv. rewrite Ed.
    assert (Ew : T (m * s * (if inv then 4 else 1)) = W inv 5 1).
    { rewrite HT by (destruct inv; nia). replace (5 * m * s) with (m * s * 5) by lia. rewrite W_scale by (auto; nia).
      destruct inv; [|reflexivity]. change 4 with (5 - 1). rewrite W_rev by lia. reflexivity. }
    destruct inv; cbn [map]; cbn [lk] in E1; rewrite E1.
    + rewrite Ew. apply core5_ok.
    + rewrite Nat.mul_1_r in Ew. rewrite Ew. apply core5_ok.
  - assert (E1 := L p Hp1).
    assert (Ed : 3 * m * s / 3 = m * s) by (replace (3 * m * s) with (m * s * 3) by lia; apply Nat.div_mul; lia).
    unfold k_tv, k_fv. rewrite Ed.
    assert (Ew : T (m * s * (if inv then 2 else 1)) = W inv 3 1).
    { rewrite HT by (destruct inv; nia). replace (3 * m * s) with (m * s * 3) by lia. rewrite W_scale by (auto; nia).
      destruct inv; [|reflexivity]. change 2 with (3 - 1). rewrite W_rev by lia. reflexivity. }
    destruct inv; cbn [map]; cbn [lk] in E1; rewrite E1.
    + rewrite Ew. apply core3_ok.
    + rewrite Nat.mul_1_r in Ew. rewrite Ew. apply core3_ok.
Qed.

Lemma eF_spec inv r s T X : radix r -> 0 < s -> Wtab (r * s) T -> fft_spec inv r s X (eF inv r s T X).
Proof.
  intros Hr Hs HT. pose proof (radix_pos r Hr) as Hr0. apply dif_final; auto. apply is_core_dif; auto. intros p Hp.
  assert (p = 0) by lia. subst p. rewrite W_0.
  assert (L : T (lk inv (r * s) (s * 1)) = W inv r 1) by (eapply look; eauto; lia).
  destruct Hr as [->|[->|[->|[->| ->]]]].
  - cbn [k_etw map]. destruct inv; cbn [k_ef]; eapply bfly_core; [apply i8_dft|reflexivity|apply f8_dft|reflexivity].
  - cbn [k_etw map]. destruct inv; cbn [k_ef]; eapply bfly_core; [apply i4_dft|reflexivity|apply f4_dft|reflexivity].
  - cbn [k_etw map]. eapply bfly_core; [apply b2_dft|reflexivity].
  - eapply bfly_core; [apply b5_dft|]. intros xs. rewrite <- L.
    destruct inv; cbn [k_etw map k_ef app end5_f lk]; f_equal; f_equal; lia.
  - eapply bfly_core; [apply b3_dft|]. intros xs. rewrite <- L.
    destruct inv; cbn [k_etw map k_ef app end3_f lk]; f_equal; f_equal; lia.
Qed.

(** ** arbitrary factors *)
Lemma any_sum_csum k i (A Wv : nat -> CC) J : any_sum k i A Wv J = csum J (fun j => cmul (A j) (Wv ((i * j) mod k))).
Proof. induction J as [|J IH]; [reflexivity|]. cbn [any_sum csum]. rewrite IH. reflexivity. Qed.

Lemma acF_spec inv k m s T X : 0 < k -> 0 < m -> 0 < s -> Wtab (k * m * s) T ->
  dif_spec inv k m s X (acF inv k m s T X).
Proof.
  intros Hk Hm Hs HT p q j Hp Hq Hj. unfold acF. rewrite any_fun_at by auto.
  rewrite any_sum_csum.
  assert (E2 : T (a_w2 inv (m * k * s) s j p) = W inv (k * m) (j * p)).
  { rewrite <- (look inv (k * m * s) s (k * m) T (j * p)) by (auto; nia).
    unfold a_w2, lk. f_equal. destruct inv; lia. }
  rewrite E2.
  assert (E1 : forall e, e < k -> T (a_wa inv (m * k * s) (m * s) e) = W inv k e).
  { intros e He. rewrite <- (look inv (k * m * s) (m * s) k T e) by (auto; nia). unfold a_wa, lk. f_equal. destruct inv; lia. }
  assert (E3 : csum k (fun j0 => cmul (X (q + s * p + m * s * j0)) (T (a_wa inv (m * k * s) (m * s) ((j * j0) mod k)))) =
    csum k (fun i => cmul (X (q + s * p + m * s * i)) (W inv k (i * j)))).
  { apply csum_ext. intros i Hi. rewrite E1 by (apply Nat.mod_upper_bound; lia). rewrite W_mod by auto. rewrite (Nat.mul_comm j i). reflexivity. }
  rewrite E3. ring.
Qed.
Lemma aeF_spec inv k s T X : 0 < k -> 0 < s -> Wtab (k * s) T -> fft_spec inv k s X (aeF inv k s T X).
Proof.
  intros Hk Hs HT q j Hq Hj. unfold aeF. replace (q + s * j) with (q + s * (j + k * 0)) by lia.
  rewrite any_fun_at by auto. rewrite any_sum_csum. unfold DFT.
  apply csum_ext. intros i Hi.
  assert (E1 : forall e, e < k -> T (a_wa inv (k * s) s e) = W inv k e).
  { intros e He. rewrite <- (look inv (k * s) s k T e) by (auto; nia). reflexivity. }
  rewrite E1 by (apply Nat.mod_upper_bound; lia). rewrite W_mod by auto. rewrite (Nat.mul_comm j i). do 2 f_equal. lia.
Qed.

(** ** the whole transform *)
Lemma any_ff_spec inv fuel : forall r n s T X,
  n <= fuel -> 2 <= n -> 0 < s -> Nat.Odd n -> Nat.Odd r -> 2 <= r -> none_below r n -> mul_ok r r = true ->
  (Z.of_nat n <= 2 ^ 30)%Z -> factors_fit n -> Wtab (n * s) T ->
  fft_spec inv n s X (any_ff (aeF inv) (acF inv) fuel r n s T X).
Proof.
  induction fuel as [|fuel IH]; intros r n s T X Hf Hn Hs Hon Hor Hr Hnb Hm Hz Hfit HT; [lia|].
  cbn [any_ff].
  destruct (find_factor_spec n r n) as (k & Ek & Hk); auto; try lia.
  rewrite Ek.
  pose proof (smallest_prime _ _ Hk) as Hpk.
  pose proof Hk as (Hk2 & Hkd & Hkm).
  pose proof (Hfit k Hpk Hkd) as Hkk.
  destruct (Nat.eqb_spec k n) as [Ekn|Hne].
  - subst k. apply aeF_spec; auto; lia.
  - destruct Hkd as [m Em].
    assert (Em' : n = k * m) by lia.
    assert (En : n / k = m) by (rewrite Em', Nat.mul_comm, Nat.div_mul; lia).
    assert (Hm0 : m <> 0) by (intros ->; lia).
    assert (Hm1 : m <> 1) by (intros ->; lia).
    assert (Hdm : Nat.divide m n) by (exists k; lia).
    assert (Hle : m <= n) by (apply Nat.divide_pos_le; [lia|auto]).
    rewrite En.
    assert (EN : n * s = k * m * s) by nia. assert (EN2 : m * (k * s) = n * s) by nia.
    pose proof (acF_spec inv k m s T X ltac:(lia) ltac:(lia) Hs ltac:(rewrite <- EN; auto)) as Ha.
    rewrite Em' at 1.
    eapply dif_compose; [lia|lia|auto|exact Ha|].
    apply IH; auto; try lia; try nia.
    + apply (odd_divide _ n); auto.
    + apply (odd_divide _ n); auto. exists m; auto.
    + eapply smallest_none_below; eauto.
    + eapply factors_fit_div; eauto.
    + rewrite EN2. auto.
Qed.

Lemma mixed_ff_spec inv fuel : forall n s T X,
  n < fuel -> 0 < n -> 0 < s -> (n = 1 -> s = 1) ->
  (Z.of_nat n <= 2 ^ 30)%Z -> factors_fit n -> Wtab (n * s) T ->
  fft_spec inv n s X (mixed_ff inv fuel n s T X).
Proof.
  unfold mixed_ff.
  induction fuel as [|fuel IH]; intros n s T X Hf Hn Hs Hn1 Hz Hfit HT; [lia|].
  assert (Hstep : forall r, radix r -> n mod r = 0 -> 2 <= n ->
    fft_spec inv n s X (step_ff (eF inv) (cF inv) (fft_ff (eF inv) (cF inv) (aeF inv) (acF inv) fuel) r n s T X)).
  { intros r Hr Hmod Hn2. unfold step_ff.
    assert (Hr0 : 2 <= r) by (destruct Hr as [->|[->|[->|[->| ->]]]]; lia).
    destruct (Nat.eqb_spec n r) as [E|Hne].
    - subst n. apply eF_spec; auto.
    - assert (En : n = r * (n / r)) by (apply Nat.div_exact in Hmod; lia).
      set (m := n / r) in *. clearbody m.
      assert (m <> 0) by (intros ->; lia). assert (m <> 1) by (intros ->; lia).
      assert (Hle : m <= n) by nia.
      assert (EN : n * s = r * m * s) by (rewrite En; reflexivity). assert (EN2 : m * (r * s) = n * s) by (rewrite EN; lia).
      pose proof (cF_spec inv r m s T X Hr ltac:(lia) Hs ltac:(rewrite <- EN; auto)) as Ha.
      rewrite En at 1.
      eapply dif_compose; [lia|lia|auto|exact Ha|].
      apply IH; auto; try lia; try nia.
      + eapply factors_fit_div; [exact Hfit|]. exists r. lia.
      + rewrite EN2. auto. }
  cbn [fft_ff].
  destruct (Nat.ltb_spec (n * s) 2) as [H2|H2].
  { assert (n = 1) by nia. rewrite (Hn1 H). subst n. apply fft_spec_1. }
  assert (Hbig : 2 <= n) by (destruct (Nat.eq_dec n 1) as [->|]; [rewrite (Hn1 eq_refl) in H2; lia|lia]).
  destruct (Nat.eqb_spec (n mod 8) 0) as [E8|E8]; [apply Hstep; auto; unfold radix; auto|].
  destruct (Nat.eqb_spec (n mod 4) 0) as [E4|E4]; [apply Hstep; auto; unfold radix; auto|].
  destruct (Nat.eqb_spec (n mod 2) 0) as [E22|E22]; [apply Hstep; auto; unfold radix; auto|].
  destruct (Nat.eqb_spec (n mod 5) 0) as [E5|E5]; [apply Hstep; auto; unfold radix; auto|].
  destruct (Nat.eqb_spec (n mod 3) 0) as [E3|E3]; [apply Hstep; auto; unfold radix; auto 10|].
  assert (Hodd : Nat.Odd n).
  { destruct (Nat.Even_or_Odd n) as [[c Hc']|H]; auto. exfalso. apply E22. apply Nat.mod_divide; [lia|]. exists c. lia. }
  apply any_ff_spec; auto; try lia.
  - exists 3. lia.
  - intros e He2 Hlt Hd.
    assert (Hnd : forall a b, Nat.divide a b -> 0 < a -> n mod a <> 0 -> ~ Nat.divide b n).
    { intros a b Hab Ha Hna Hbn. apply Hna. apply Nat.mod_divide; [lia|]. eapply Nat.divide_trans; eauto. }
    assert (Hcase : e = 2 \/ e = 3 \/ e = 4 \/ e = 5 \/ e = 6) by lia.
    destruct Hcase as [->|[->|[->|[->| ->]]]].
    + apply (Hnd 2 2); auto using Nat.divide_refl; lia.
    + apply (Hnd 3 3); auto using Nat.divide_refl; lia.
    + apply (Hnd 2 4); auto; exists 2; lia.
    + apply (Hnd 5 5); auto using Nat.divide_refl; lia.
    + apply (Hnd 2 6); auto; exists 3; lia.
Qed.
