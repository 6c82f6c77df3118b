(** * The power-of-two transforms compute the DFT (exact arithmetic) *)

From Coq Require Import Reals List Arith ZArith Bool Lia.
From Verif Require Import Scalar RealOps Spec DftFacts Mem Lanes Butterfly ButterflyFacts Stage CoreStage ModelPow PowDrive PowKern PowRun FftSpec MixedSpec PowButterfly.
Import ListNotations.
Local Open Scope nat_scope.

(** ** tables *)
Definition TabOk (o : bool) (a : alg) (N : nat) (T : nat -> CC) : Prop :=
  forall p k, p < N / radix a -> 1 <= k < radix a ->
    if o then T p = W false N p
    else T (p + (k - 1) * (N / radix a)) = W false N (k * p) /\ T (N + radix a * p + k) = W false N (k * p).

Lemma cj_W inv N k : cj inv (W false N k) = W inv N k.
Proof. destruct inv; [|reflexivity]. cbn [cj]. rewrite W_conj. reflexivity. Qed.
Lemma wpows_W inv N p n : wpows (W inv N p) n = map (fun k => W inv N (k * p)) (seq 1 n).
Proof. unfold wpows. rewrite <- seq_shift, map_map. apply map_ext. intros j. apply cpow_Wp. Qed.

Section Core.
Variables (o : bool) (a : alg) (m s N : nat) (T : nat -> CC).
Hypothesis HN : N = radix a * m * s.
Hypothesis Hs : 0 < s.
Hypothesis HT : TabOk o a N T.
Let Hr0 : 1 < radix a. Proof. destruct a; cbn; lia. Qed.
Lemma tw_vals p : p < m ->
  map T (ktw o a m s p) = if o then [W false (radix a * m) p] else map (fun k => W false (radix a * m) (k * p)) (seq 1 (radix a - 1)).
Proof.
  intros Hp. assert (Eq : N / radix a = m * s) by (rewrite HN; apply quot; lia).
  assert (Hrm : 0 < radix a * m) by nia.
  assert (Es : forall k, W false N (k * (s * p)) = W false (radix a * m) (k * p)).
  { intros k. rewrite HN. replace (radix a * m * s) with (s * (radix a * m)) by lia. replace (k * (s * p)) with (s * (k * p)) by lia.
    apply W_scale; auto. }
  unfold ktw. unfold TabOk in HT. rewrite Eq in HT. destruct o.
  - unfold tw_o. cbn [map]. rewrite (HT (s * p) 1) by nia. specialize (Es 1). rewrite !Nat.mul_1_l in Es. rewrite Es. reflexivity.
  - unfold tw_s. destruct (Nat.eqb_spec s 1) as [E1|Hs1].
    + rewrite map_map. apply map_ext_in. intros k Hk. apply in_seq in Hk. 
      destruct (HT p k) as [E _]; [nia|lia|]. rewrite E1, Nat.mul_1_r in E. rewrite E.
      rewrite <- Es, E1, Nat.mul_1_l. reflexivity.
    + rewrite map_map. apply map_ext_in. intros k Hk. apply in_seq in Hk.
      destruct (HT (s * p) k) as [_ E]; [nia|lia|]. rewrite <- Es, <- E. f_equal. rewrite HN. lia.
Qed.

Lemma map_cj inv p : map (cj inv) (map (fun k => W false (radix a * m) (k * p)) (seq 1 (radix a - 1))) = wpows (W inv (radix a * m) p) (radix a - 1).
Proof. rewrite map_map, wpows_W. apply map_ext. intros k. apply cj_W. Qed.

Lemma kf_dif_val inv p xs : is_dit a = false -> p < m -> length xs = radix a ->
  kf o a inv s (map T (ktw o a m s p) ++ xs) = twist (wpows (W inv (radix a * m) p) (radix a - 1)) (bf inv (radix a) xs).
Proof.
  intros Hd Hp Hl. rewrite tw_vals by auto. destruct o.
  - rewrite kf_o_dif by auto. rewrite cj_W. reflexivity.
  - rewrite kf_s_dif by (auto; rewrite map_length, seq_length; auto). rewrite map_cj. reflexivity.
Qed.
Lemma kf_dit_val inv p xs : is_dit a = true -> p < m -> length xs = radix a ->
  kf o a inv s (map T (ktw o a m s p) ++ xs) = bf inv (radix a) (twist (wpows (W inv (radix a * m) p) (radix a - 1)) xs).
Proof.
  intros Hd Hp Hl. rewrite tw_vals by auto. destruct o.
  - rewrite kf_o_dit by auto. rewrite cj_W. reflexivity.
  - rewrite kf_s_dit by (auto; rewrite map_length, seq_length; auto). rewrite map_cj. reflexivity.
Qed.
End Core.

Lemma cF_dif_spec o a inv m s T X : is_dit a = false -> 0 < m -> 0 < s -> TabOk o a (radix a * m * s) T ->
  dif_spec inv (radix a) m s X (cF o a inv m s T X).
Proof.
  intros Hd Hm Hs HT. unfold cF. rewrite Hd. assert (Hr0 : 0 < radix a) by (destruct a; cbn; lia).
  apply is_core_dif; auto. intros p Hp xs Hl. rewrite (kf_dif_val o a m s (radix a * m * s)) by auto.
  apply twist_bfly; auto. apply bf_dft, radix_ends.
Qed.

Lemma twist_len ws (zs : list CC) : length (twist ws zs) = length zs.
Proof. destruct zs as [|z zs]; [destruct ws; reflexivity|]. cbn. rewrite tmul_len. reflexivity. Qed.
Lemma twist_nth w n (zs : list CC) i : length zs = S n -> i < S n -> nth i (twist (wpows w n) zs) c0 = cmul (cpow w i) (nth i zs c0).
Proof.
  intros Hl Hi. destruct zs as [|z zs]; [discriminate|]. injection Hl as Hl. destruct i as [|i]; cbn [twist nth].
  - cbn [cpow]. ring.
  - rewrite tmul_nth; unfold wpows; rewrite ?map_length, ?seq_length; try lia. rewrite nth_ms by lia. reflexivity.
Qed.

Lemma cF_dit_spec o a inv m s T Y : is_dit a = true -> 0 < m -> 0 < s -> TabOk o a (radix a * m * s) T ->
  dit_spec inv (radix a) m s Y (cF o a inv m s T Y).
Proof.
  intros Hd Hm Hs HT p q j Hp Hq Hj. unfold cF. rewrite Hd. assert (Hr0 : 1 < radix a) by (destruct a; cbn; lia).
  rewrite dit_fun_at by auto.
  rewrite (kf_dit_val o a m s (radix a * m * s)) by (auto; rewrite map_length, seq_length; auto).
  rewrite (bf_dft inv (radix a) (radix_ends a)) by (rewrite twist_len, map_length, seq_length; auto).
  rewrite nth_ms by auto. apply csum_ext. intros i Hi. f_equal.
  rewrite twist_nth by (rewrite ?map_length, ?seq_length; lia). rewrite nth_ms by auto. rewrite cpow_Wp. ring.
Qed.

(** ** scaling *)
Definition sc (N : nat) (mode : smode) : R := scale_of (Op := ROps) N mode.
Lemma scalepz_sc N mode (z : CC) : scalepz N mode z = cscal (sc N mode) z.
Proof. destruct mode; try reflexivity. unfold sc, scale_of, scalepz. csimp; ring. Qed.

Lemma eF_spec o a inv mode n s T X : ends n -> 0 < s ->
  fft_spec inv n s (fun i => cscal (sc (n * s) mode) (X i)) (eF o a inv mode n s T X).
Proof.
  intros Hn Hs. assert (Hn0 : 0 < n) by (destruct Hn as [->|[->|[->| ->]]]; lia).
  apply dif_final; auto. intros p q j Hp Hq Hj. assert (p = 0) as -> by lia.
  unfold eF. rewrite dif_fun_at by auto. cbn [map app].
  rewrite ef_form by (auto; rewrite map_length, seq_length; auto).
  rewrite map_map. rewrite (bf_dft inv n Hn) by (rewrite map_length, seq_length; auto).
  rewrite nth_ms by auto. rewrite (Nat.mul_0_r j), W_0.
  transitivity (csum n (fun i => cmul (nth i (map (fun i => scalepz (n * s) mode (X (q + s * 0 + 1 * s * i))) (seq 0 n)) c0) (W inv n (i * j)))); [reflexivity|].
  set (A := csum n _). set (B := csum n _). assert (E : A = B).
  { apply csum_ext. intros i Hi. rewrite nth_ms by auto. rewrite scalepz_sc. reflexivity. }
  rewrite E. ring.
Qed.

Lemma cscal_cmul_l c (z w : CC) : cscal c (cmul z w) = cmul (cscal c z) w.
Proof. csimp; ring. Qed.
Lemma csum_cscal c n (f : nat -> CC) : csum n (fun i => cscal c (f i)) = cscal c (csum n f).
Proof. induction n as [|n IH]; cbn [csum]; [csimp; ring|]. rewrite IH. csimp; ring. Qed.
Lemma dif_spec_scal inv r m s c X Y : dif_spec inv r m s X Y -> dif_spec inv r m s (fun i => cscal c (X i)) (fun i => cscal c (Y i)).
Proof.
  intros H p q j Hp Hq Hj. rewrite H by auto.
  assert (E : csum r (fun i => cmul (cscal c (X (q + s * p + m * s * i))) (W inv r (i * j))) = cscal c (csum r (fun i => cmul (X (q + s * p + m * s * i)) (W inv r (i * j))))).
  { rewrite <- csum_cscal. apply csum_ext. intros i _. symmetry. apply cscal_cmul_l. }
  rewrite E. csimp; ring.
Qed.

(** ** the whole transform *)
Lemma pow_ff_spec o a inv mode : forall fuel n s T X, n <= fuel -> 2 <= n -> pow2 n -> four_or_1 s ->
  (radix a < n -> TabOk o a (n * s) T) ->
  fft_spec inv n s (fun i => cscal (sc (n * s) mode) (X i)) (pow_ff o a inv mode fuel n s T X).
Proof.
  unfold pow_ff.
  assert (Hr1 : 1 < radix a) by (destruct a; cbn; lia).
  destruct (is_dit a) eqn:Ed; induction fuel as [|fuel IH]; intros n s T X Hf Hn Hp Hs HT; try lia; cbn [dit_ff dif_ff].
  - destruct (Nat.leb_spec n (radix a)) as [H|H].
    + apply eF_spec; [eapply ends_pow2; eauto; apply radix_16|apply four_pos; auto].
    + destruct (pow2_quot n (radix a) Hp (radix_pow2 a) H) as (m & En & Em & Hpm & Hm2 & h & Hh).
      pose proof (four_pos s Hs) as Hs0. rewrite Em.
      assert (EN : n * s = m * (radix a * s)) by (rewrite En; lia).
      rewrite En at 1. eapply dit_compose; [lia|lia|auto| |].
      * rewrite EN. apply IH; auto; try nia.
        -- destruct (radix_4 a) as [hh Ehh]. right. exists (hh * s). split; nia.
        -- intros _. rewrite <- EN. auto.
      * apply cF_dit_spec; auto; try lia. rewrite <- En. auto.
  - destruct (Nat.leb_spec n (radix a)) as [H|H].
    + apply eF_spec; [eapply ends_pow2; eauto; apply radix_16|apply four_pos; auto].
    + destruct (pow2_quot n (radix a) Hp (radix_pow2 a) H) as (m & En & Em & Hpm & Hm2 & h & Hh).
      pose proof (four_pos s Hs) as Hs0. rewrite Em.
      assert (EN : n * s = m * (radix a * s)) by (rewrite En; lia).
      rewrite En at 1. eapply dif_compose; [lia|lia|auto| |].
      * apply dif_spec_scal. apply (cF_dif_spec o a inv m s T X); auto; try lia. rewrite <- En. auto.
      * rewrite EN. apply IH; auto; try nia.
        -- destruct (radix_4 a) as [hh Ehh]. right. exists (hh * s). split; nia.
        -- intros _. rewrite <- EN. auto.
Qed.
