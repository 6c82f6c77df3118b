(** * Rounding errors of the power-of-two transforms *)

From Coq Require Import Reals ZArith List Arith Bool Lia Lra Psatz.
From Verif Require Import Scalar RealOps Spec DftFacts Norm Simd Round RoundBf RoundTab RoundStage.
From Verif Require Import Butterfly ButterflyFacts Stage CoreStage ModelPow PowDrive PowKern PowRun FftSpec MixedSpec PowButterfly PowSpec PowExact PowClassFacts.
From Verif Require Import ModelDif4 ModelDif8 ModelDif16 ModelDit4 ModelDit8 ModelDit16.
Import ListNotations.
Local Open Scope nat_scope.

(** the powers of one twiddle factor computed by the kernels of thread teams *)
Section Powl.
Context {Op : Ops}.
Definition powl (w1p : C) : list C :=
  let w2p := cmul w1p w1p in let w3p := cmul w1p w2p in let w4p := cmul w2p w2p in let w5p := cmul w2p w3p in let w6p := cmul w3p w3p in
  let w7p := cmul w3p w4p in let w8p := cmul w4p w4p in let w9p := cmul w4p w5p in let wap := cmul w5p w5p in let wbp := cmul w5p w6p in
  let wcp := cmul w6p w6p in let wdp := cmul w6p w7p in let wep := cmul w7p w7p in let wfp := cmul w7p w8p in
  [w1p; w2p; w3p; w4p; w5p; w6p; w7p; w8p; w9p; wap; wbp; wcp; wdp; wep; wfp].
Ltac dl xs H := let v := fresh "x" in destruct xs as [|v xs]; [try discriminate H|try discriminate H; dl xs H].
Lemma kf_o_dif' a inv s (w : C) xs : is_dit a = false -> length xs = radix a ->
  kf true a inv s ([w] ++ xs) = twist (firstn (radix a - 1) (powl (cj inv w))) (bf inv (radix a) xs).
Proof.
  intros Hd H2. unfold kf.
  destruct a; try discriminate Hd; destruct (s =? 1); destruct inv; cbn [radix Nat.sub] in *; dl xs H2; cbn [firstn powl cj]; reflexivity.
Qed.
Lemma kf_o_dit' a inv s (w : C) xs : is_dit a = true -> length xs = radix a ->
  kf true a inv s ([w] ++ xs) = bf inv (radix a) (twist (firstn (radix a - 1) (powl (cj inv w))) xs).
Proof.
  intros Hd H2. unfold kf.
  destruct a; try discriminate Hd; destruct (s =? 1); destruct inv; cbn [radix Nat.sub] in *; dl xs H2; cbn [firstn powl cj]; reflexivity.
Qed.
End Powl.

Section Pow.
Variables (A : rounding) (bd : build).
Notation F := (fl A bd).
Notation ap := (approx A).
Notation tap := (tapx A).
Notation fft_err := (fft_err (psi A)).
Notation dif_err := (dif_err (psi A)).
Notation dit_err := (dit_err (psi A)).
Let f0 : (0 <= psi A)%R := psi0 A.

Lemma ap_eq a b z' z z2 B : z = z2 -> ap a b z' z B -> ap a b z' z2 B.
Proof. intros <-. auto. Qed.
Lemma ta_eq a b z' z z2 : z = z2 -> tap a b z' z -> tap a b z' z2.
Proof. intros <-. auto. Qed.
Lemma ta_cj a b inv z' z : tap a b z' z -> tap a b (@cj F inv z') (cj inv z).
Proof. destruct inv; cbn [cj]; auto. apply ta_conj. Qed.
Lemma ap_cj a b inv z' z B : ap a b z' z B -> ap a b (@cj F inv z') (cj inv z) B.
Proof. destruct inv; cbn [cj]; auto. apply ap_conj. Qed.

Ltac apw := lazymatch goal with
  | |- tapx _ _ _ (cmul _ _) _ => eapply ta_mul; [apw|apw]
  | |- tapx _ _ _ (cconj _) _ => eapply ta_conj; apw
  | |- tapx _ _ _ ?x _ => is_var x; eassumption
  end.
Ltac powt := cbn [map seq wpows]; unfold wpows; cbn [seq map]; unfold cj;
  repeat (constructor; [eapply ta_eq; cycle 1; [eapply ta_mono; [apw|lia|lia]|cbn [cpow]; try ring]|]); constructor.

Lemma powl_ap (w' w : CC) n : tap 0 1 w' w -> 1 <= n <= 15 -> ltw A (3 * (n - 1)) n (firstn n (@powl F w')) (wpows w n).
Proof.
  intros Hw Hn. assert (G : ltw A 0 0 [] [] /\ True) by (split; [constructor|auto]).
  do 16 (destruct n as [|n]; [try lia; cbv beta iota zeta delta [firstn powl]; unfold ltw; powt|]). lia.
Qed.

(** ** passes *)
Lemma EE_pow a b c : ((EE A a b) ^ c = EE A (c * a) (c * b))%R.
Proof. unfold EE. rewrite Rpow_mult_distr, <- !pow_mult. f_equal; f_equal; lia. Qed.
Lemma EE_g a b : (1 + (EE A a b - 1) = EE A a b)%R.
Proof. ring. Qed.
Lemma EE_g0 a b : (0 <= EE A a b - 1)%R.
Proof. pose proof (EE_ge1 A a b). lra. Qed.

Definition TabApx (o : bool) (a : alg) (N : nat) (T : nat -> CC) : Prop :=
  forall p k, p < N / radix a -> 1 <= k < radix a ->
    if o then tap 0 1 (T p) (W false N p)
    else tap 0 1 (T (p + (k - 1) * (N / radix a))) (W false N (k * p)) /\ tap 0 1 (T (N + radix a * p + k)) (W false N (k * p)).

(** the twiddle factors in front of the butterfly *)
Definition twc (o : bool) (r : nat) : nat := if o then 3 * (r - 2) else 0.
Definition twd (o : bool) (r : nat) : nat := if o then r - 1 else 1.
Lemma map_ltw (l : list nat) (f g : nat -> CC) : (forall k, In k l -> tap 0 1 (f k) (g k)) -> ltw A 0 1 (map f l) (map g l).
Proof.
  induction l as [|k l IH]; intros H; cbn [map]; constructor; [apply H; left; auto|]. apply IH. intros i Hi. apply H. right; auto.
Qed.
Section Core.
Variables (o : bool) (a : alg) (m s N : nat) (T : nat -> CC).
Hypothesis HN : N = radix a * m * s.
Hypothesis Hs : 0 < s.
Hypothesis HT : TabApx o a N T.
Let Hr0 : 1 < radix a. Proof. destruct a; cbn; lia. Qed.
Lemma tw_aps p : p < m ->
  if o then exists w', map T (ktw o a m s p) = [w'] /\ tap 0 1 w' (W false (radix a * m) p)
  else ltw A 0 1 (map T (ktw o a m s p)) (map (fun k => W false (radix a * m) (k * p)) (seq 1 (radix a - 1))) /\ length (map T (ktw o a m s p)) = radix a - 1.
Proof.
  intros Hp. assert (Eq : N / radix a = m * s) by (rewrite HN; apply quot; lia).
  assert (Hrm : 0 < radix a * m) by nia.
  assert (Es : forall k, W false N (k * (s * p)) = W false (radix a * m) (k * p)).
  { intros k. rewrite HN. replace (radix a * m * s) with (s * (radix a * m)) by lia. replace (k * (s * p)) with (s * (k * p)) by lia.
    apply W_scale; auto. }
  unfold ktw. unfold TabApx in HT. rewrite Eq in HT. destruct o.
  - unfold tw_o. cbn [map]. exists (T (s * p)). split; [reflexivity|]. pose proof (HT (s * p) 1) as H. specialize (Es 1). rewrite !Nat.mul_1_l in Es. rewrite <- Es. apply H; nia.
  - unfold tw_s. destruct (Nat.eqb_spec s 1) as [E1|Hs1].
    + rewrite map_map. split; [|rewrite map_length, seq_length; auto]. apply map_ltw. intros k Hk. apply in_seq in Hk.
      destruct (HT p k) as [E _]; [nia|lia|]. rewrite E1, Nat.mul_1_r in E. rewrite <- Es, E1, Nat.mul_1_l. exact E.
    + rewrite map_map. split; [|rewrite map_length, seq_length; auto]. apply map_ltw. intros k Hk. apply in_seq in Hk.
      destruct (HT (s * p) k) as [_ E]; [nia|lia|]. rewrite <- Es. match goal with |- tapx _ _ _ (T ?i) _ => replace i with (N + radix a * (s * p) + k) by (rewrite HN; lia) end. exact E.
Qed.
Lemma ltw_cj inv c d ws' ws : ltw A c d ws' ws -> ltw A c d (map (@cj F inv) ws') (map (cj inv) ws).
Proof. intros H. induction H as [|w' w ws' ws H1 H IH]; cbn [map]; constructor; auto. apply ta_cj. auto. Qed.
Lemma kf_dif_ap inv p xs : is_dit a = false -> p < m -> length xs = radix a ->
  exists ws', ltw A (twc o (radix a)) (twd o (radix a)) ws' (wpows (W inv (radix a * m) p) (radix a - 1)) /\
    @kf F o a inv s (map T (ktw o a m s p) ++ xs) = @twist F ws' (@bf F inv (radix a) xs).
Proof.
  intros Hd Hp Hl. pose proof (tw_aps p Hp) as H. destruct o.
  - destruct H as (w' & E & Hw). rewrite E. exists (firstn (radix a - 1) (@powl F (@cj F inv w'))). split.
    + unfold twc, twd. replace (radix a - 2) with (radix a - 1 - 1) by lia. apply powl_ap; [|destruct a; cbn; lia]. rewrite <- cj_W. apply ta_cj. auto.
    + exact (@kf_o_dif' F a inv s w' xs Hd Hl).
  - destruct H as [Hw Hlen]. exists (map (@cj F inv) (map T (ktw false a m s p))). split.
    + rewrite <- (map_cj a m inv p). apply ltw_cj. exact Hw.
    + exact (@kf_s_dif F a inv s _ xs Hd Hlen Hl).
Qed.
Lemma kf_dit_ap inv p xs : is_dit a = true -> p < m -> length xs = radix a ->
  exists ws', ltw A (twc o (radix a)) (twd o (radix a)) ws' (wpows (W inv (radix a * m) p) (radix a - 1)) /\
    @kf F o a inv s (map T (ktw o a m s p) ++ xs) = @bf F inv (radix a) (@twist F ws' xs).
Proof.
  intros Hd Hp Hl. pose proof (tw_aps p Hp) as H. destruct o.
  - destruct H as (w' & E & Hw). rewrite E. exists (firstn (radix a - 1) (@powl F (@cj F inv w'))). split.
    + unfold twc, twd. replace (radix a - 2) with (radix a - 1 - 1) by lia. apply powl_ap; [|destruct a; cbn; lia]. rewrite <- cj_W. apply ta_cj. auto.
    + exact (@kf_o_dit' F a inv s w' xs Hd Hl).
  - destruct H as [Hw Hlen]. exists (map (@cj F inv) (map T (ktw false a m s p))). split.
    + rewrite <- (map_cj a m inv p). apply ltw_cj. exact Hw.
    + exact (@kf_s_dit F a inv s _ xs Hd Hlen Hl).
Qed.
End Core.

Definition cr (r : nat) : nat := match r with 16 => 4 | 8 => 3 | _ => 2 end.
Lemma cr_ok r : rad4 r -> r <= cr r * cr r.
Proof. intros [-> | [-> | [-> | ->]]]; cbn; lia. Qed.
Lemma radix_rad a : rad4 (radix a).
Proof. destruct a; unfold rad4; cbn; auto. Qed.
Definition pka (o : bool) (r : nat) : nat := 3 + (twc o r + Kbf r).
Definition pkb (o : bool) (r : nat) : nat := twd o r.
Lemma cscal1 (z : CC) : @cscal ROps 1%R z = z.
Proof. csimp; ring. Qed.

Lemma cF_dif_err o a inv m s T X : is_dit a = false -> 0 < m -> 0 < s -> TabApx o a (radix a * m * s) T ->
  dif_err inv (radix a) m s 1 (EE A (cr (radix a) * pka o (radix a)) (cr (radix a) * pkb o (radix a))) X (@cF F o a inv m s T X).
Proof.
  intros Hd Hm Hs HT. rewrite <- EE_pow, <- EE_g. apply dif_pass_err; [exact f0|apply cr_ok, radix_rad|lra|apply EE_g0|].
  intros p q j Hp Hq Hj. unfold cF. rewrite Hd. rewrite dif_fun_at by auto.
  set (xs := map (fun i => X (q + s * p + m * s * i)) (seq 0 (radix a))).
  assert (Hl : length xs = radix a) by (unfold xs; rewrite map_length, seq_length; auto).
  destruct (kf_dif_ap o a m s _ T eq_refl Hs HT inv p xs Hd Hp Hl) as (ws' & Hw & E).
  match goal with |- context [nth j ?l _] => change l with (@kf F o a inv s (map T (ktw o a m s p) ++ xs)) end. rewrite E.
  pose proof (bf_ap A bd inv (radix a) 0 0 xs xs (map (fun i => (cabs (X (q + s * p + m * s * i)%nat) + psi A)%R) (seq 0 (radix a))) (radix_rad a) (lap_id A (fun i => X (q + s * p + m * s * i)) _) Hl) as Hb.
  pose proof (twist_ap A bd _ _ _ _ _ _ _ _ _ Hw Hb) as Ho.
  assert (EV : twist (wpows (W inv (radix a * m) p) (radix a - 1)) (bf inv (radix a) xs) =
    map (fun j => cmul (cpow (W inv (radix a * m) p) j) (csum (radix a) (fun i => cmul (nth i xs c0) (W inv (radix a) (i * j))))) (seq 0 (radix a))).
  { apply twist_bfly; auto; [destruct a; cbn; lia|apply bf_dft, radix_ends]. }
  rewrite EV in Ho. apply (louts_nth A bd _ _ _ _ _ j) in Ho; [|rewrite map_length, seq_length; auto]. rewrite nth_ms in Ho by auto.
  rewrite rs_seq in Ho. destruct Ho as [_ Ho]. rewrite cscal1. rewrite cpow_Wp in Ho.
  rewrite !Nat.add_0_r in Ho. unfold pka, pkb.
  assert (E1 : csum (radix a) (fun i => cmul (nth i xs c0) (W inv (radix a) (i * j))) = csum (radix a) (fun i => cmul (X (q + s * (p + m * i))) (W inv (radix a) (i * j)))).
  { apply csum_ext. intros i Hi. unfold xs. rewrite nth_ms by auto. do 2 f_equal. lia. }
  rewrite E1 in Ho.
  assert (E2 : rsum (radix a) (fun i => cabs (X (q + s * p + m * s * i)%nat) + psi A)%R = rsum (radix a) (fun i => 1 * cabs (X (q + s * (p + m * i))%nat) + psi A)%R).
  { apply rsum_ext. intros i Hi. rewrite Rmult_1_l. do 3 f_equal. lia. }
  rewrite E2 in Ho. exact Ho.
Qed.
Lemma cF_dit_err o a inv m s T X : is_dit a = true -> 0 < m -> 0 < s -> TabApx o a (radix a * m * s) T ->
  dit_err inv (radix a) m s 1 (EE A (cr (radix a) * pka o (radix a)) (cr (radix a) * pkb o (radix a))) X (@cF F o a inv m s T X).
Proof.
  intros Hd Hm Hs HT. rewrite <- EE_pow, <- EE_g. apply dit_pass_err; [exact f0|apply cr_ok, radix_rad|apply EE_g0|].
  assert (Hr0 : 1 < radix a) by (destruct a; cbn; lia).
  intros p q j Hp Hq Hj. unfold cF. rewrite Hd. rewrite dit_fun_at by auto.
  set (xs := map (fun i => X (q + radix a * (s * p) + s * i)) (seq 0 (radix a))).
  assert (Hl : length xs = radix a) by (unfold xs; rewrite map_length, seq_length; auto).
  destruct (kf_dit_ap o a m s _ T eq_refl Hs HT inv p xs Hd Hp Hl) as (ws' & Hw & E).
  match goal with |- context [nth j ?l _] => change l with (@kf F o a inv s (map T (ktw o a m s p) ++ xs)) end. rewrite E.
  pose proof (twist_lap A bd _ _ _ _ _ _ _ Hw (lap_id A (fun i => X (q + radix a * (s * p) + s * i)) (seq 0 (radix a)))) as Ht. fold xs in Ht.
  pose proof (bf_ap A bd inv (radix a) _ _ _ _ _ (radix_rad a) Ht ltac:(rewrite twist_len; auto)) as Ho.
  rewrite (bf_dft inv (radix a) (radix_ends a)) in Ho by (rewrite twist_len; auto).
  apply (louts_nth A bd _ _ _ _ _ j) in Ho; [|rewrite map_length, seq_length; auto]. rewrite nth_ms in Ho by auto.
  rewrite rs_seq in Ho. destruct Ho as [_ Ho].
  assert (E1 : csum (radix a) (fun i => cmul (nth i (twist (wpows (W inv (radix a * m) p) (radix a - 1)) xs) c0) (W inv (radix a) (i * j)))
     = csum (radix a) (fun i => cmul (cmul (X (q + s * (i + radix a * p))) (W inv (radix a * m) (i * p))) (W inv (radix a) (i * j)))).
  { apply csum_ext. intros i Hi. f_equal. rewrite twist_nth by lia. unfold xs. rewrite nth_ms by auto. rewrite cpow_Wp.
    replace (q + radix a * (s * p) + s * i) with (q + s * (i + radix a * p)) by lia. ring. }
  rewrite E1 in Ho.
  assert (E2 : rsum (radix a) (fun i => cabs (X (q + radix a * (s * p) + s * i)%nat) + psi A)%R = rsum (radix a) (fun i => cabs (X (q + s * (i + radix a * p))%nat) + psi A)%R).
  { apply rsum_ext. intros i Hi. do 3 f_equal. lia. }
  rewrite E2 in Ho. unfold pka, pkb. replace (3 + (twc o (radix a) + Kbf (radix a))) with (Kbf (radix a) + (3 + twc o (radix a))) by lia. exact Ho.
Qed.

(** the last pass scales its inputs *)
Lemma lap_scal N mode (X : nat -> CC) l : plen N ->
  lap A 4 0 (map (fun i => @scalepz F N mode (X i)) l) (map (fun i => scalepz N mode (X i)) l) (map (fun i => (sc N mode * cabs (X i) + psi A)%R) l).
Proof.
  intros H1. induction l as [|i l IH]; cbn [map lap]; [auto|]. split; [|exact IH]. eapply ap_mono; [apply (scalepz_ap A bd N mode 0 0); auto; apply ap_id|lia|lia|]. apply Req_le. ring.
Qed.
Lemma eF_err o a inv mode n s T X : ends n -> 0 < s -> plen (n * s) ->
  fft_err inv n s (sc (n * s) mode) (EE A (cr n * (Kbf n + 4)) 0) X (@eF F o a inv mode n s T X).
Proof.
  intros Hn Hs HN. assert (Hn0 : 0 < n) by (destruct Hn as [->|[->|[->| ->]]]; lia).
  assert (HN0 : 0 < n * s) by nia.
  pose proof (sc_pos (n * s) mode HN0) as Hc.
  apply dif_final_err; auto. replace (EE A (cr n * (Kbf n + 4)) 0) with (EE A (cr n * (Kbf n + 4)) (cr n * 0)) by (f_equal; lia). rewrite <- EE_pow, <- EE_g. apply dif_pass_err; [exact f0|apply cr_ok, Hn|lra|apply EE_g0|].
  intros p q j Hp Hq Hj. assert (p = 0) as -> by lia.
  unfold eF. rewrite dif_fun_at by auto. cbn [map app].
  rewrite ef_form by (auto; rewrite map_length, seq_length; auto). rewrite map_map.
  pose proof (bf_ap A bd inv n _ _ _ _ _ Hn (lap_scal (n * s) mode (fun i => X (q + s * 0 + 1 * s * i)) (seq 0 n) HN) ltac:(rewrite map_length, seq_length; auto)) as Ho.
  rewrite (bf_dft inv n Hn) in Ho by (rewrite map_length, seq_length; auto).
  apply (louts_nth A bd _ _ _ _ _ j) in Ho; [|rewrite map_length, seq_length; auto]. rewrite nth_ms in Ho by auto.
  rewrite rs_seq in Ho. destruct Ho as [_ Ho].
  assert (E1 : csum n (fun i => cmul (nth i (map (fun i => scalepz (n * s) mode (X (q + s * 0 + 1 * s * i))) (seq 0 n)) c0) (W inv n (i * j)))
    = cscal (sc (n * s) mode) (cmul (W inv (n * 1) (j * 0)) (csum n (fun i => cmul (X (q + s * (0 + 1 * i))) (W inv n (i * j)))))).
  { rewrite (Nat.mul_0_r j), W_0. transitivity (cscal (sc (n * s) mode) (csum n (fun i => cmul (X (q + s * (0 + 1 * i))) (W inv n (i * j))))).
    - rewrite <- csum_cscal. apply csum_ext. intros i Hi. rewrite nth_ms by auto. rewrite scalepz_sc, cscal_cmul_l. do 3 f_equal. lia.
    - f_equal. ring. }
  rewrite E1 in Ho.
  assert (E2 : rsum n (fun i => sc (n * s) mode * cabs (X (q + s * 0 + 1 * s * i)%nat) + psi A)%R = rsum n (fun i => sc (n * s) mode * cabs (X (q + s * (0 + 1 * i))%nat) + psi A)%R).
  { apply rsum_ext. intros i Hi. do 4 f_equal. lia. }
  rewrite E2 in Ho. exact Ho.
Qed.

(** ** the whole transform: cost per factor of two *)
Definition pa (o : bool) : nat := if o then 60 else 15.
Definition pb (o : bool) : nat := if o then 15 else 1.
Definition lg (r : nat) : nat := match r with 16 => 4 | 8 => 3 | 4 => 2 | _ => 1 end.
Lemma pass_cost o a : cr (radix a) * pka o (radix a) <= lg (radix a) * pa o /\ cr (radix a) * pkb o (radix a) <= lg (radix a) * pb o.
Proof. destruct o, a; cbn; lia. Qed.
Lemma end_cost o n : ends n -> cr n * (Kbf n + 4) <= lg n * pa o.
Proof. intros [-> | [-> | [-> | ->]]]; destruct o; cbn; lia. Qed.
Lemma lg_2 r : rad4 r -> r = 2 ^ lg r.
Proof. intros [-> | [-> | [-> | ->]]]; reflexivity. Qed.

Lemma pow_ff_err o a inv mode : forall fuel n k s T X, n <= fuel -> 1 <= k -> n = 2 ^ k -> four_or_1 s -> plen (n * s) ->
  (radix a < n -> TabApx o a (n * s) T) ->
  fft_err inv n s (sc (n * s) mode) (EE A (k * pa o) (k * pb o)) X (@pow_ff F o a inv mode fuel n s T X).
Proof.
  unfold pow_ff.
  assert (Hr1 : 1 < radix a) by (destruct a; cbn; lia).
  assert (Hend : forall n k s T X, 1 <= k -> n = 2 ^ k -> four_or_1 s -> plen (n * s) -> n <= radix a ->
    fft_err inv n s (sc (n * s) mode) (EE A (k * pa o) (k * pb o)) X (@eF F o a inv mode n s T X)).
  { intros n k s T X Hk En Hs HN H. assert (Hp : pow2 n) by (exists k; auto). assert (H2 : 2 <= n).
    { rewrite En. destruct k; [lia|]. cbn [Nat.pow]. pose proof (pow2_pos k). lia. }
    pose proof (ends_pow2 n (radix a) Hp (conj H2 H) (radix_16 a)) as He. pose proof (four_pos s Hs) as Hs0.
    eapply fft_err_mono; [exact f0|apply Rlt_le, sc_pos; nia| |apply eF_err; auto].
    assert (k = lg n) as ->. { apply (Nat.pow_inj_r 2); [lia|]. rewrite <- En. apply lg_2. exact He. }
    apply EE_mono; [apply end_cost; auto|lia]. }
  destruct (is_dit a) eqn:Ed; induction fuel as [|fuel IH]; intros n k s T X Hf Hk En Hs HN HT; try (rewrite En in Hf; pose proof (pow2_pos k); lia); cbn [dit_ff dif_ff].
  - destruct (Nat.leb_spec n (radix a)) as [H|H]; [apply Hend; auto|].
    assert (Hp : pow2 n) by (exists k; auto).
    destruct (pow2_quot n (radix a) Hp (radix_pow2 a) H) as (m & En' & Em & [km Hkm] & Hm2 & h & Hh).
    pose proof (four_pos s Hs) as Hs0. rewrite Em.
    assert (EN : n * s = m * (radix a * s)) by (rewrite En'; lia).
    assert (Ek : k = lg (radix a) + km).
    { apply (Nat.pow_inj_r 2); [lia|]. rewrite <- En, Nat.pow_add_r, <- lg_2 by apply radix_rad. rewrite <- Hkm. exact En'. }
    assert (Hkm1 : 1 <= km) by (destruct km; [cbn in Hkm; lia|lia]).
    assert (Hm : 0 < n * s) by nia. pose proof (sc_pos (n * s) mode Hm) as Hc. pose proof (sc_le1 (n * s) mode Hm) as Hc1. pose proof (psi0 A).
    rewrite En' at 1. eapply fft_err_mono; [exact f0|lra| |].
    2:{ rewrite <- (Rmult_1_r (sc (n * s) mode)). apply dit_compose_err with (E1 := EE A (km * pa o) (km * pb o)) (E2 := EE A (cr (radix a) * pka o (radix a)) (cr (radix a) * pkb o (radix a)))
          (Y' := @dit_ff (@C F) (radix a) (@eF F o a inv mode) (@cF F o a inv) fuel m (radix a * s) T X); try lia; try lra; try apply EE_ge1.
        - rewrite EN. apply IH; auto; try nia; try (rewrite <- EN; exact HN).
          + destruct (radix_4 a) as [hh Ehh]. right. exists (hh * s). split; nia.
          + intros _. rewrite <- EN. auto.
        - apply cF_dit_err; auto; try lia; try (apply plen_31; rewrite <- ?En'; exact HN). rewrite <- En'. auto. }
    rewrite EE_mul. destruct (pass_cost o a). apply EE_mono; nia.
  - destruct (Nat.leb_spec n (radix a)) as [H|H]; [apply Hend; auto|].
    assert (Hp : pow2 n) by (exists k; auto).
    destruct (pow2_quot n (radix a) Hp (radix_pow2 a) H) as (m & En' & Em & [km Hkm] & Hm2 & h & Hh).
    pose proof (four_pos s Hs) as Hs0. rewrite Em.
    assert (EN : n * s = m * (radix a * s)) by (rewrite En'; lia).
    assert (Ek : k = lg (radix a) + km).
    { apply (Nat.pow_inj_r 2); [lia|]. rewrite <- En, Nat.pow_add_r, <- lg_2 by apply radix_rad. rewrite <- Hkm. exact En'. }
    assert (Hkm1 : 1 <= km) by (destruct km; [cbn in Hkm; lia|lia]).
    assert (Hm : 0 < n * s) by nia. pose proof (sc_pos (n * s) mode Hm) as Hc. pose proof (sc_le1 (n * s) mode Hm) as Hc1. pose proof (psi0 A).
    rewrite En' at 1. eapply fft_err_mono; [exact f0|lra| |].
    2:{ rewrite <- (Rmult_1_l (sc (n * s) mode)). apply dif_compose_err with (E2 := EE A (km * pa o) (km * pb o)) (E1 := EE A (cr (radix a) * pka o (radix a)) (cr (radix a) * pkb o (radix a)))
          (Y' := @cF F o a inv m s T X); try lia; try lra; try apply EE_ge1.
        - apply cF_dif_err; auto; try lia; try (apply plen_31; rewrite <- ?En'; exact HN). rewrite <- En'. auto.
        - rewrite EN. apply IH; auto; try nia; try (rewrite <- EN; exact HN).
          + destruct (radix_4 a) as [hh Ehh]. right. exists (hh * s). split; nia.
          + intros _. rewrite <- EN. auto. }
    rewrite EE_mul. destruct (pass_cost o a). apply EE_mono; nia.
Qed.
End Pow.
