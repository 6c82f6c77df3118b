(** * Rounding errors of the mixed-radix transform *)

From Coq Require Import Reals ZArith List Arith Bool Lia Lra Psatz Permutation.
From Verif Require Import Scalar RealOps Spec DftFacts Norm Simd Round RoundBf RoundTab RoundStage RoundPow.
From Verif Require Import Mem Lanes Butterfly ButterflyFacts Stage CoreStage ModelMixed MixedStage FactorFacts MixedDrive MixedRun FftSpec MixedSpec PowButterfly PowSpec PowExact.
Import ListNotations.
Local Open Scope nat_scope.

(** ** prime factorisations *)
Fixpoint prodl (l : list nat) : nat := match l with nil => 1 | p :: l => p * prodl l end.
Fixpoint suml (f : nat -> nat) (l : list nat) : nat := match l with nil => 0 | p :: l => f p + suml f l end.
Lemma suml_perm f l l' : Permutation l l' -> suml f l = suml f l'.
Proof. induction 1; cbn [suml]; lia. Qed.
Lemma prodl_perm l l' : Permutation l l' -> prodl l = prodl l'.
Proof. induction 1; cbn [prodl]; lia. Qed.
Lemma prime_div_list p l : prime p -> Forall prime l -> Nat.divide p (prodl l) -> In p l.
Proof.
  intros Hp H. induction H as [|q l Hq H IH]; intros Hd.
  - cbn [prodl] in Hd. apply Nat.divide_1_r in Hd. destruct Hp. lia.
  - cbn [prodl] in Hd. destruct (Nat.eq_dec p q) as [->|Hne]; [left; auto|]. right. apply IH. apply (Nat.gauss p q); auto.
    destruct Hp as [Hp2 Hp]. destruct Hq as [Hq2 Hq]. pose proof (Nat.gcd_divide_l p q) as G1. pose proof (Nat.gcd_divide_r p q) as G2.
    destruct (Hp _ G1) as [E|E]; auto. destruct (Hq _ G2) as [E2|E2]; auto. lia.
Qed.
Lemma prime_split p l m : prime p -> Forall prime l -> prodl l = p * m -> exists l', Permutation l (p :: l') /\ Forall prime l' /\ prodl l' = m.
Proof.
  intros Hp H E. assert (Hi : In p l) by (apply prime_div_list; auto; rewrite E; exists m; lia).
  apply in_split in Hi. destruct Hi as (l1 & l2 & ->).
  assert (HP : Permutation (l1 ++ p :: l2) (p :: (l1 ++ l2))) by (symmetry; apply Permutation_middle).
  exists (l1 ++ l2). split; auto. split.
  - apply Forall_app in H. destruct H as [H1 H2]. apply Forall_app. split; auto. inversion H2; auto.
  - rewrite (prodl_perm _ _ HP) in E. cbn [prodl] in E. destruct Hp. nia.
Qed.
Lemma prime_2 : prime 2.
Proof. split; [lia|]. intros e He. pose proof (Nat.divide_pos_le e 2 ltac:(lia) He). destruct He as [c Hc]. nia. Qed.
Lemma prime_3 : prime 3.
Proof. split; [lia|]. intros e He. pose proof (Nat.divide_pos_le e 3 ltac:(lia) He). destruct He as [c Hc]. nia. Qed.
Lemma prime_5 : prime 5.
Proof. split; [lia|]. intros e He. pose proof (Nat.divide_pos_le e 5 ltac:(lia) He). destruct He as [c Hc]. destruct e as [|[|[|[|[|[|e]]]]]]; try lia. Qed.

(** cost of a prime factor: ca roundings and cb entries of a table of twiddle factors *)
Definition ca (p : nat) : nat := if p =? 2 then 60 else Nat.sqrt_up p * (p + 23).
Definition cb (p : nat) : nat := if p =? 2 then 15 else Nat.sqrt_up p * 8.

Section Mixed.
Variables (A : rounding) (bd : build).
Notation F := (fl A bd).
Notation ap := (approx A).
Notation tap := (tapx A).
Notation fft_err := (fft_err (psi A)).
Notation dif_err := (dif_err (psi A)).
Let f0 : (0 <= psi A)%R := psi0 A.

(** ** kernels *)
(** kernel f', applied to the twiddle factors tws', is within (ka, kb) of the exact core with twiddle factor w *)
Definition core_err (inv : bool) (r ka kb : nat) (f' : list (@C F) -> list (@C F)) (tws' : list CC) (w : CC) : Prop :=
  forall xs Bs, lap A 0 0 xs xs Bs -> length xs = r ->
    louts A ka kb (f' (tws' ++ xs)) (map (fun j => cmul (cpow w j) (csum r (fun i => cmul (nth i xs c0) (W inv r (i * j))))) (seq 0 r)) (rs Bs).

Lemma core_dif_err inv r m s c ka kb T X (f' : list (@C F) -> list (@C F)) (tw : nat -> list nat) :
  0 < r -> r <= c * c -> 0 < m -> 0 < s ->
  (forall p, p < m -> core_err inv r ka kb f' (map T (tw p)) (W inv (r * m) p)) ->
  dif_err inv r m s 1 (EE A (c * ka) (c * kb)) X (@dif_fun F r m s tw f' T X).
Proof.
  intros Hr Hc Hm Hs H. rewrite <- EE_pow, <- EE_g. apply dif_pass_err; [exact f0|auto|lra|apply EE_g0|].
  intros p q j Hp Hq Hj. rewrite dif_fun_at by auto.
  set (xs := map (fun i => X (q + s * p + m * s * i)) (seq 0 r)).
  assert (Hl : length xs = r) by (unfold xs; rewrite map_length, seq_length; auto).
  pose proof (H p Hp xs _ (lap_id A (fun i => X (q + s * p + m * s * i)) (seq 0 r)) Hl) as Ho.
  apply (louts_nth A bd _ _ _ _ _ j) in Ho; [|rewrite map_length, seq_length; auto]. rewrite nth_ms in Ho by auto.
  rewrite rs_seq in Ho. destruct Ho as [_ Ho]. rewrite cscal1. rewrite cpow_Wp in Ho.
  assert (E1 : csum r (fun i => cmul (nth i xs c0) (W inv r (i * j))) = csum r (fun i => cmul (X (q + s * (p + m * i))) (W inv r (i * j)))).
  { apply csum_ext. intros i Hi. unfold xs. rewrite nth_ms by auto. do 2 f_equal. lia. }
  rewrite E1 in Ho.
  assert (E2 : rsum r (fun i => cabs (X (q + s * p + m * s * i)%nat) + psi A)%R = rsum r (fun i => 1 * cabs (X (q + s * (p + m * i))%nat) + psi A)%R).
  { apply rsum_ext. intros i Hi. rewrite Rmult_1_l. do 3 f_equal. lia. }
  rewrite E2 in Ho. exact Ho.
Qed.

Lemma twist_core inv r ka kb c d ws' w (b' : list (@C F) -> list (@C F)) b : 0 < r -> is_bfly inv r b -> ltw A c d ws' (wpows w (r - 1)) ->
  (forall xs Bs, lap A 0 0 xs xs Bs -> length xs = r -> louts A ka kb (b' xs) (b xs) (rs Bs)) ->
  forall xs Bs, lap A 0 0 xs xs Bs -> length xs = r ->
    louts A (3 + (c + ka)) (d + kb) (@twist F ws' (b' xs)) (map (fun j => cmul (cpow w j) (csum r (fun i => cmul (nth i xs c0) (W inv r (i * j))))) (seq 0 r)) (rs Bs).
Proof.
  intros Hr Hb Hw H xs Bs Hx Hl. rewrite <- (twist_bfly inv r b w xs) by auto. apply (twist_ap A bd); auto.
Qed.
Lemma twistr_core inv r ka kb c d ws' w (b' : list (@C F) -> list (@C F)) b : 0 < r -> is_bfly inv r b -> ltw A c d ws' (wpows w (r - 1)) ->
  (forall xs Bs, lap A 0 0 xs xs Bs -> length xs = r -> louts A ka kb (b' xs) (b xs) (rs Bs)) ->
  forall xs Bs, lap A 0 0 xs xs Bs -> length xs = r ->
    louts A (3 + (ka + c)) (kb + d) (@twistr F ws' (b' xs)) (map (fun j => cmul (cpow w j) (csum r (fun i => cmul (nth i xs c0) (W inv r (i * j))))) (seq 0 r)) (rs Bs).
Proof.
  intros Hr Hb Hw H xs Bs Hx Hl. rewrite <- (twistr_bfly inv r b w xs) by auto. apply (twistr_ap A bd); auto.
Qed.
Lemma core_err_mono inv r ka kb ka' kb' f' tws' w : ka <= ka' -> kb <= kb' -> core_err inv r ka kb f' tws' w -> core_err inv r ka' kb' f' tws' w.
Proof. intros Ha Hb H xs Bs Hx Hl. eapply louts_mono; [exact Ha|exact Hb|auto]. Qed.

Lemma powl1 w' w n : tap 0 1 w' w -> 1 <= n <= 15 -> ltw A (3 * (n - 1)) n (firstn n (@powl F w')) (wpows w n).
Proof. intros Hw Hn. apply powl_ap; auto. Qed.

Lemma core2_err inv w' w : tap 0 1 w' w -> core_err inv 2 4 1 (@core2_f F) [w'] w.
Proof.
  intros Hw xs Bs Hx Hl. cbn [core2_f app]. 
  apply (twist_core inv 2 1 0 0 1 [w'] w (@b2 F) b2); [lia|apply b2_dft| | |exact Hx|exact Hl].
  - apply (powl1 w' w 1); auto; lia.
  - intros ys Cs Hy Hly. apply (b2_ap A bd 0 0); auto.
Qed.
Definition b4 (inv : bool) {Op : Ops} := if inv then @i4 Op else @f4 Op.
Definition b8 (inv : bool) {Op : Ops} := if inv then @i8 Op else @f8 Op.
Lemma b4_dft inv : is_bfly inv 4 (@b4 inv ROps).
Proof. destruct inv; [apply i4_dft|apply f4_dft]. Qed.
Lemma b8_dft inv : is_bfly inv 8 (@b8 inv ROps).
Proof. destruct inv; [apply i8_dft|apply f8_dft]. Qed.
Lemma b4_ap inv xs Bs : lap A 0 0 xs xs Bs -> length xs = 4 -> louts A 2 0 (@b4 inv F xs) (@b4 inv ROps xs) (rs Bs).
Proof. intros H Hl. pose proof (bf4_ap A bd inv 0 0 xs xs Bs H Hl) as G. destruct inv; exact G. Qed.
Lemma b8_ap inv xs Bs : lap A 0 0 xs xs Bs -> length xs = 8 -> louts A 6 0 (@b8 inv F xs) (@b8 inv ROps xs) (rs Bs).
Proof. intros H Hl. pose proof (bf8_ap A bd inv 0 0 xs xs Bs H Hl) as G. destruct inv; exact G. Qed.

Lemma pows3 w1' w2' w3' w : tap 0 1 w1' w -> tap 0 1 w2' (cpow w 2) -> tap 0 1 w3' (cpow w 3) -> ltw A 0 1 [w1'; w2'; w3'] (wpows w 3).
Proof.
  intros H1 H2 H3. unfold wpows. cbn [seq map]. constructor; [eapply ta_eq; [|exact H1]; cbn [cpow]; ring|]. constructor; [exact H2|]. constructor; [exact H3|]. constructor.
Qed.
Lemma pows7 w1' w2' w3' w : tap 0 1 w1' w -> tap 0 1 w2' (cpow w 2) -> tap 0 1 w3' (cpow w 3) ->
  ltw A 6 3 [w1'; w2'; w3'; @cmul F w2' w2'; @cmul F w2' w3'; @cmul F w3' w3'; @cmul F w3' (@cmul F w2' w2')] (wpows w 7).
Proof.
  intros H1 H2 H3. unfold wpows. cbn [seq map].
  assert (M : forall a b c d x' x y' y, tap a b x' x -> tap c d y' y -> tap (3 + (a + c)) (b + d) (@cmul F x' y') (cmul x y)) by (intros; apply ta_mul; auto).
  pose proof (M _ _ _ _ _ _ _ _ H2 H2) as H4. pose proof (M _ _ _ _ _ _ _ _ H2 H3) as H5. pose proof (M _ _ _ _ _ _ _ _ H3 H3) as H6. pose proof (M _ _ _ _ _ _ _ _ H3 H4) as H7.
  assert (S : forall a b z' z z2, a <= 6 -> b <= 3 -> z = z2 -> tap a b z' z -> tap 6 3 z' z2).
  { intros a b z' z z2 Ha Hb <- H. eapply ta_mono; eauto. }
  constructor; [eapply S; [| | |exact H1]; [lia|lia|cbn [cpow]; ring]|].
  constructor; [eapply S; [| | |exact H2]; [lia|lia|cbn [cpow]; ring]|].
  constructor; [eapply S; [| | |exact H3]; [lia|lia|cbn [cpow]; ring]|].
  constructor; [eapply S; [| | |exact H4]; [lia|lia|cbn [cpow]; ring]|].
  constructor; [eapply S; [| | |exact H5]; [lia|lia|cbn [cpow]; ring]|].
  constructor; [eapply S; [| | |exact H6]; [lia|lia|cbn [cpow]; ring]|].
  constructor; [eapply S; [| | |exact H7]; [lia|lia|cbn [cpow]; ring]|].
  constructor.
Qed.

Definition c4v (inv : bool) {Op : Ops} := if inv then @invcore4_fv Op else @fwdcore4_fv Op.
Definition c8v (inv : bool) {Op : Ops} := if inv then @invcore8_fv Op else @fwdcore8_fv Op.
Definition c4s (inv : bool) {Op : Ops} := if inv then @invcore4_fs Op else @fwdcore4_fs Op.
Definition c8s (inv : bool) {Op : Ops} := if inv then @invcore8_fs Op else @fwdcore8_fs Op.

Lemma core4v_err inv w1' w2' w3' w : tap 0 1 w1' w -> tap 0 1 w2' (cpow w 2) -> tap 0 1 w3' (cpow w 3) ->
  core_err inv 4 11 3 (@c4v inv F) [w1'; w2'; w3'] w.
Proof.
  intros H1 H2 H3. apply (core_err_mono inv 4 5 1); try lia. intros xs Bs Hx Hl.
  assert (E : @c4v inv F ([w1'; w2'; w3'] ++ xs) = @twist F [w1'; w2'; w3'] (@b4 inv F xs)) by (destruct inv; reflexivity). rewrite E.
  apply (twist_core inv 4 2 0 0 1 [w1'; w2'; w3'] w (@b4 inv F) (@b4 inv ROps)); [lia|apply b4_dft|apply pows3; auto|intros; apply b4_ap; auto|exact Hx|exact Hl].
Qed.
Lemma core8v_err inv w1' w2' w3' w : tap 0 1 w1' w -> tap 0 1 w2' (cpow w 2) -> tap 0 1 w3' (cpow w 3) ->
  core_err inv 8 27 7 (@c8v inv F) [w1'; w2'; w3'] w.
Proof.
  intros H1 H2 H3. apply (core_err_mono inv 8 15 3); try lia. intros xs Bs Hx Hl.
  set (ws' := [w1'; w2'; w3'; @cmul F w2' w2'; @cmul F w2' w3'; @cmul F w3' w3'; @cmul F w3' (@cmul F w2' w2')]).
  assert (E : @c8v inv F ([w1'; w2'; w3'] ++ xs) = @twist F ws' (@b8 inv F xs)) by (destruct inv; reflexivity). rewrite E.
  apply (twist_core inv 8 6 0 6 3 ws' w (@b8 inv F) (@b8 inv ROps)); [lia|apply b8_dft|apply pows7; auto|intros; apply b8_ap; auto|exact Hx|exact Hl].
Qed.
Lemma core4s_err inv w' w : tap 0 1 w' w -> core_err inv 4 11 3 (@c4s inv F) [w'] (cj inv w).
Proof.
  intros H1 xs Bs Hx Hl.
  assert (E : @c4s inv F ([w'] ++ xs) = @twist F (firstn 3 (@powl F (@cj F inv w'))) (@b4 inv F xs)) by (destruct inv; reflexivity). rewrite E.
  apply (twist_core inv 4 2 0 6 3 _ (cj inv w) (@b4 inv F) (@b4 inv ROps)); [lia|apply b4_dft|apply (powl1 _ _ 3); [apply ta_cj; auto|lia]|intros; apply b4_ap; auto|exact Hx|exact Hl].
Qed.
Lemma core8s_err inv w' w : tap 0 1 w' w -> core_err inv 8 27 7 (@c8s inv F) [w'] (cj inv w).
Proof.
  intros H1 xs Bs Hx Hl.
  assert (E : @c8s inv F ([w'] ++ xs) = @twist F (firstn 7 (@powl F (@cj F inv w'))) (@b8 inv F xs)) by (destruct inv; reflexivity). rewrite E.
  apply (twist_core inv 8 6 0 18 7 _ (cj inv w) (@b8 inv F) (@b8 inv ROps)); [lia|apply b8_dft|apply (powl1 _ _ 7); [apply ta_cj; auto|lia]|intros; apply b8_ap; auto|exact Hx|exact Hl].
Qed.
Lemma core5_err inv v' w' w : tap 0 1 v' (W inv 5 1) -> tap 0 1 w' w -> core_err inv 5 28 8 (@core5_f F) [v'; w'] w.
Proof.
  intros Hv Hw xs Bs Hx Hl. cbn [core5_f app]. cbv zeta.
  apply (twistr_core inv 5 16 4 9 4 _ w (@b5 F v') (b5 (W inv 5 1))); [lia|apply b5_dft|apply (powl1 w' w 4); auto; lia| |exact Hx|exact Hl].
  intros ys Cs Hy Hly. apply (b5_ap A bd 0 0); auto.
Qed.
Lemma core3_err inv v' w' w : tap 0 1 v' (W inv 3 1) -> tap 0 1 w' w -> core_err inv 3 14 4 (@core3_f F) [v'; w'] w.
Proof.
  intros Hv Hw xs Bs Hx Hl. cbn [core3_f app]. cbv zeta.
  apply (twistr_core inv 3 8 2 3 2 _ w (@b3 F v') (b3 (W inv 3 1))); [lia|apply b3_dft|apply (powl1 w' w 2); auto; lia| |exact Hx|exact Hl].
  intros ys Cs Hy Hly. apply (b3_ap A bd 0 0); auto.
Qed.
Lemma bfly_core_err inv r ka kb (f' : list (@C F) -> list (@C F)) tws' (b' : list (@C F) -> list (@C F)) b : is_bfly inv r b -> (forall xs, f' (tws' ++ xs) = b' xs) ->
  (forall xs Bs, lap A 0 0 xs xs Bs -> length xs = r -> louts A ka kb (b' xs) (b xs) (rs Bs)) -> core_err inv r ka kb f' tws' c1.
Proof.
  intros Hb Hf H xs Bs Hx Hl. rewrite Hf. pose proof (H xs Bs Hx Hl) as Ho. rewrite (Hb xs Hl) in Ho.
  erewrite map_ext; [exact Ho|]. intros j. cbv beta. set (u := csum _ _).
  assert (E : cpow c1 j = c1). { clear. induction j as [|j IH]; auto. cbn [cpow]. rewrite IH. ring. }
  rewrite E. ring.
Qed.

(** ** passes *)
Definition WtabApx (N : nat) (T : nat -> CC) : Prop := forall p, p <= N -> tap 0 1 (T p) (W false N p).
Lemma lookA inv N s n T e : WtabApx N T -> N = s * n -> 0 < s -> 0 < n -> e <= n -> tap 0 1 (T (lk inv N (s * e))) (W inv n e).
Proof.
  intros HT HN Hs Hn He. rewrite <- (look inv N s n (W false N) e) by (auto; intros ? ?; reflexivity).
  apply HT. destruct inv; cbn [lk]; nia.
Qed.

Definition ka (r : nat) : nat := match r with 8 => 27 | 4 => 11 | 2 => 4 | 5 => 28 | 3 => 14 | _ => r + 6 end.
Definition kb (r : nat) : nat := match r with 8 => 7 | 4 => 3 | 2 => 1 | 5 => 8 | 3 => 4 | _ => 2 end.
Definition kc (r : nat) : nat := match r with 8 => 3 | 4 => 2 | 2 => 2 | 5 => 3 | 3 => 2 | _ => Nat.sqrt_up r end.
Lemma kc_ok r : radix r -> r <= kc r * kc r.
Proof. intros [-> | [-> | [-> | [-> | ->]]]]; cbn; lia. Qed.

Lemma cF_err inv r m s T X : radix r -> 0 < m -> 0 < s -> WtabApx (r * m * s) T ->
  dif_err inv r m s 1 (EE A (kc r * ka r) (kc r * kb r)) X (@cF F inv r m s T X).
Proof.
  intros Hr Hm Hs HT. pose proof (radix_pos r Hr) as Hr0. pose proof (kc_ok r Hr) as Hc. unfold cF. apply core_dif_err; auto. intros p Hp.
  assert (Hp1 : p <= r * m) by nia.
  assert (HN : r * m * s = s * (r * m)) by lia. assert (Hrm : 0 < r * m) by nia.
  assert (L : forall e, e <= r * m -> tap 0 1 (T (lk inv (r * m * s) (s * e))) (W inv (r * m) e)) by (intros; eapply lookA; eauto).
  assert (L1 : s = 1 -> tap 0 1 (T p) (W false (r * m) p)).
  { intros Es. specialize (HT p). rewrite Es, Nat.mul_1_r in HT. apply HT. auto. }
  assert (P2 : W inv (r * m) (2 * p) = cpow (W inv (r * m) p) 2) by (rewrite cpow_Wp; auto).
  assert (P3 : W inv (r * m) (3 * p) = cpow (W inv (r * m) p) 3) by (rewrite cpow_Wp; auto).
  unfold k_f, k_tw, ctw, cf, stw.
  destruct Hr as [->|[->|[->|[->| ->]]]]; cbn [is2 ka kb].
  - destruct (Nat.leb_spec 2 s) as [H2|H2].
    + assert (E1 := L (1 * p) ltac:(nia)). assert (E2 := L (2 * p) ltac:(nia)). assert (E3 := L (3 * p) ltac:(nia)).
      replace (s * (1 * p)) with (1 * (s * p)) in E1 by lia. replace (s * (2 * p)) with (2 * (s * p)) in E2 by lia. replace (s * (3 * p)) with (3 * (s * p)) in E3 by lia.
      rewrite Nat.mul_1_l in E1. rewrite P2 in E2. rewrite P3 in E3. rewrite (Nat.mul_1_l p) in E1.
      destruct inv; cbn [k_tv k_fv map]; rewrite ?Nat.mul_1_l in *; cbn [lk] in *; [apply (core8v_err true)|apply (core8v_err false)]; auto.
    + assert (Es : s = 1) by lia. cbn [k_ts k_fs map]. rewrite <- (cj_W inv). destruct inv; [apply (core8s_err true)|apply (core8s_err false)]; auto.
  - destruct (Nat.leb_spec 2 s) as [H2|H2].
    + assert (E1 := L (1 * p) ltac:(nia)). assert (E2 := L (2 * p) ltac:(nia)). assert (E3 := L (3 * p) ltac:(nia)).
      replace (s * (1 * p)) with (1 * (s * p)) in E1 by lia. replace (s * (2 * p)) with (2 * (s * p)) in E2 by lia. replace (s * (3 * p)) with (3 * (s * p)) in E3 by lia.
      rewrite Nat.mul_1_l in E1. rewrite P2 in E2. rewrite P3 in E3. rewrite (Nat.mul_1_l p) in E1.
      destruct inv; cbn [k_tv k_fv map]; rewrite ?Nat.mul_1_l in *; cbn [lk] in *; [apply (core4v_err true)|apply (core4v_err false)]; auto.
    + assert (Es : s = 1) by lia. cbn [k_ts k_fs map]. rewrite <- (cj_W inv). destruct inv; [apply (core4s_err true)|apply (core4s_err false)]; auto.
  - assert (E1 := L p Hp1). destruct (Nat.leb_spec 2 s) as [H2|H2].
    + destruct inv; cbn [k_tv k_fv map]; cbn [lk] in E1; apply core2_err; auto.
    + assert (Es : s = 1) by lia. subst s. rewrite Nat.mul_1_l in E1. destruct inv; cbn [k_ts k_fs map]; cbn [lk] in E1; apply core2_err; auto.
  - assert (E1 := L p Hp1).
    assert (Ed : 5 * m * s / 5 = m * s) by (replace (5 * m * s) with (m * s * 5) by lia; apply Nat.div_mul; lia).
    unfold k_tv, k_fv. rewrite Ed.
    assert (Ew : tap 0 1 (T (m * s * (if inv then 4 else 1))) (W inv 5 1)).
    { eapply ta_eq; [|apply HT; destruct inv; nia]. replace (5 * m * s) with (m * s * 5) by lia. rewrite W_scale by (auto; nia).
      destruct inv; [|reflexivity]. change 4 with (5 - 1). rewrite W_rev by lia. reflexivity. }
    destruct inv; cbn [map]; cbn [lk] in E1; [|rewrite Nat.mul_1_r in Ew]; apply core5_err; auto.
  - assert (E1 := L p Hp1).
    assert (Ed : 3 * m * s / 3 = m * s) by (replace (3 * m * s) with (m * s * 3) by lia; apply Nat.div_mul; lia).
    unfold k_tv, k_fv. rewrite Ed.
    assert (Ew : tap 0 1 (T (m * s * (if inv then 2 else 1))) (W inv 3 1)).
    { eapply ta_eq; [|apply HT; destruct inv; nia]. replace (3 * m * s) with (m * s * 3) by lia. rewrite W_scale by (auto; nia).
      destruct inv; [|reflexivity]. change 2 with (3 - 1). rewrite W_rev by lia. reflexivity. }
    destruct inv; cbn [map]; cbn [lk] in E1; [|rewrite Nat.mul_1_r in Ew]; apply core3_err; auto.
Qed.

Lemma eF_err inv r s T X : radix r -> 0 < s -> WtabApx (r * s) T -> fft_err inv r s 1 (EE A (kc r * ka r) (kc r * kb r)) X (@eF F inv r s T X).
Proof.
  intros Hr Hs HT. pose proof (radix_pos r Hr) as Hr0. pose proof (kc_ok r Hr) as Hc. unfold eF. apply dif_final_err; auto. apply core_dif_err; auto. intros p Hp.
  assert (p = 0) by lia. subst p. rewrite W_0.
  assert (L : tap 0 1 (T (lk inv (r * s) (s * 1))) (W inv r 1)) by (eapply lookA; eauto; lia).
  destruct Hr as [->|[->|[->|[->| ->]]]]; cbn [ka kb].
  - cbn [k_etw map]. apply (core_err_mono inv 8 6 0); [lia|lia|]. apply (bfly_core_err inv 8 _ _ _ _ (@b8 inv F) (@b8 inv ROps)); [apply b8_dft|intros xs; destruct inv; reflexivity|intros xs Bs Hx Hl; apply b8_ap; auto].
  - cbn [k_etw map]. apply (core_err_mono inv 4 2 0); [lia|lia|]. apply (bfly_core_err inv 4 _ _ _ _ (@b4 inv F) (@b4 inv ROps)); [apply b4_dft|intros xs; destruct inv; reflexivity|intros xs Bs Hx Hl; apply b4_ap; auto].
  - cbn [k_etw map]. apply (core_err_mono inv 2 1 0); [lia|lia|]. apply (bfly_core_err inv 2 _ _ _ _ (@b2 F) (@b2 ROps)); [apply b2_dft|reflexivity|intros xs Bs Hx Hl; apply (b2_ap A bd 0 0); auto].
  - apply (core_err_mono inv 5 16 4); [lia|lia|]. apply (bfly_core_err inv 5 _ _ _ _ (@b5 F (T (lk inv (5 * s) (s * 1)))) (@b5 ROps (W inv 5 1))); [apply b5_dft| |intros xs Bs Hx Hl; apply (b5_ap A bd 0 0); [exact L|auto|auto]].
    intros xs. destruct inv; cbn [k_etw map k_ef app end5_f lk]; f_equal; f_equal; lia.
  - apply (core_err_mono inv 3 8 2); [lia|lia|]. apply (bfly_core_err inv 3 _ _ _ _ (@b3 F (T (lk inv (3 * s) (s * 1)))) (@b3 ROps (W inv 3 1))); [apply b3_dft| |intros xs Bs Hx Hl; apply (b3_ap A bd 0 0); [exact L|auto|auto]].
    intros xs. destruct inv; cbn [k_etw map k_ef app end3_f lk]; f_equal; f_equal; lia.
Qed.

(** ** arbitrary factors *)
Lemma c0_F : @c0 F = @c0 ROps.
Proof. change (@c0 F) with (rnd A (IZR 0), rnd A (IZR 0)). rewrite (rnd_int A) by (cbn; lia). reflexivity. Qed.
Lemma ap_addw a b x' x B1 y' y B2 : (0 <= B1)%R -> (cabs x <= B1)%R -> (cabs (@csub ROps x' x) <= (EE A a b - 1) * B1)%R -> ap a b y' y B2 ->
  ap (1 + a) b (@cadd F x' y') (cadd x y) (B1 + B2).
Proof.
  intros H0 P1 P2 H2. assert (HA : ap a b (cadd x' y') (cadd x y) (B1 + B2)%R).
  { destruct H2 as [Q1 Q2]. split; [pose proof (cabs_add x y); pose proof (psi0 A); lra|].
    replace (csub (cadd x' y') (cadd x y)) with (cadd (csub x' x) (csub y' y)) by ring. pose proof (cabs_add (csub x' x) (csub y' y)). lra. }
  eapply ap_op; [|exact HA]. pose proof (ap_mag _ _ _ _ _ _ HA). eapply Rle_trans; [apply fl_add|].
  apply Rmult_le_compat_l; auto. pose proof (pow_ge1 (1 + uu A) 1 (U1 A)). lra.
Qed.
Lemma any_step k i (X Wv' Wv : nat -> CC) J : (forall e, e < k -> tap 0 1 (Wv' e) (Wv e)) -> 0 < k ->
  let B := rsum J (fun j => cabs (X j) + psi A)%R in let x' := @any_sum F k i X Wv' J in let x := csum J (fun j => cmul (X j) (Wv ((i * j) mod k))) in
  (0 <= B)%R -> (cabs x <= B)%R -> (cabs (@csub ROps x' x) <= (EE A (J + 3) 1 - 1) * B)%R ->
  ap (S J + 3) 1 (@any_sum F k i X Wv' (S J)) (csum (S J) (fun j => cmul (X j) (Wv ((i * j) mod k)))) (rsum (S J) (fun j => cabs (X j) + psi A)%R).
Proof.
  intros Hw Hk B x' x H0 H1 H2. cbn [any_sum csum rsum]. fold B x' x. pose proof (Hw ((i * J) mod k) ltac:(apply Nat.mod_upper_bound; lia)) as H3.
  pose proof (ap_mulr A bd _ _ _ _ _ _ _ _ _ (ap_id A (X J)) H3) as H4.
  assert (H5 : ap (J + 3) 1 (@cmul F (X J) (Wv' ((i * J) mod k))) (cmul (X J) (Wv ((i * J) mod k))) (cabs (X J) + psi A)%R) by (eapply ap_mono; [exact H4|lia|lia|lra]).
  exact (ap_addw _ _ _ _ _ _ _ _ H0 H1 H2 H5).
Qed.
Lemma any_sum_err0 k i (X Wv' Wv : nat -> CC) J : (forall e, e < k -> tap 0 1 (Wv' e) (Wv e)) -> 0 < k ->
  let B := rsum J (fun j => cabs (X j) + psi A)%R in let x' := @any_sum F k i X Wv' J in let x := csum J (fun j => cmul (X j) (Wv ((i * j) mod k))) in
  (0 <= B /\ cabs x <= B /\ cabs (@csub ROps x' x) <= (EE A (J + 3) 1 - 1) * B)%R.
Proof.
  intros Hw Hk. cbv zeta. induction J as [|J (I0 & I1 & I2)].
  - cbn [any_sum csum rsum]. rewrite c0_F. assert (E0 : cabs (@c0 ROps) = 0%R) by exact cabs_0. split; [apply Rle_refl|]. split; [apply Req_le; exact E0|].
    rewrite Rmult_0_r. apply Req_le. transitivity (cabs (@c0 ROps)); [|exact E0]. apply (f_equal cabs). apply (f_equal2 pair); apply Rminus_diag_eq; reflexivity.
  - pose proof (any_step k i X Wv' Wv J Hw Hk I0 I1 I2) as H. split; [exact (ap_B0 A _ _ _ _ _ H)|]. destruct H as [H1 H2]. split; [|exact H2]. pose proof (psi0 A). lra.
Qed.
Lemma any_sum_err k i (X Wv' Wv : nat -> CC) J : (forall e, e < k -> tap 0 1 (Wv' e) (Wv e)) -> 0 < k -> 0 < J ->
  ap (J + 3) 1 (@any_sum F k i X Wv' J) (csum J (fun j => cmul (X j) (Wv ((i * j) mod k)))) (rsum J (fun j => cabs (X j) + psi A)%R).
Proof.
  intros Hw Hk HJ. destruct J as [|J]; [lia|]. destruct (any_sum_err0 k i X Wv' Wv J Hw Hk) as (I0 & I1 & I2). apply (any_step k i X Wv' Wv J); auto.
Qed.
Lemma sq_up k : k <= Nat.sqrt_up k * Nat.sqrt_up k.
Proof. destruct k; [lia|]. pose proof (Nat.sqrt_up_spec (S k) ltac:(lia)). lia. Qed.

Lemma acF_err inv k m s T X : 0 < k -> 0 < m -> 0 < s -> WtabApx (k * m * s) T ->
  dif_err inv k m s 1 (EE A (Nat.sqrt_up k * (k + 6)) (Nat.sqrt_up k * 2)) X (@acF F inv k m s T X).
Proof.
  intros Hk Hm Hs HT. rewrite <- EE_pow, <- EE_g. apply dif_pass_err; [exact f0|apply sq_up|lra|apply EE_g0|].
  intros p q j Hp Hq Hj. unfold acF. rewrite any_fun_at by auto. rewrite cscal1.
  assert (E2 : tap 0 1 (T (a_w2 inv (m * k * s) s j p)) (W inv (k * m) (j * p))).
  { pose proof (lookA inv (k * m * s) s (k * m) T (j * p) HT ltac:(lia) Hs ltac:(nia) ltac:(nia)) as H.
    replace (a_w2 inv (m * k * s) s j p) with (lk inv (k * m * s) (s * (j * p))) by (unfold a_w2, lk; destruct inv; lia). exact H. }
  assert (E1 : forall e, e < k -> tap 0 1 (T (a_wa inv (m * k * s) (m * s) e)) (W inv k e)).
  { intros e He. pose proof (lookA inv (k * m * s) (m * s) k T e HT ltac:(lia) ltac:(nia) Hk ltac:(lia)) as H.
    replace (a_wa inv (m * k * s) (m * s) e) with (lk inv (k * m * s) (m * s * e)) by (unfold a_wa, lk; destruct inv; lia). exact H. }
  pose proof (any_sum_err k j (fun j0 => X (q + s * p + m * s * j0)) _ _ k E1 Hk Hk) as H1.
  pose proof (ap_mulr A bd _ _ _ _ _ _ _ _ _ H1 E2) as [_ H].
  assert (E3 : cmul (csum k (fun j0 => cmul (X (q + s * p + m * s * j0)) (W inv k ((j * j0) mod k)))) (W inv (k * m) (j * p)) =
    cmul (W inv (k * m) (j * p)) (csum k (fun i => cmul (X (q + s * (p + m * i))) (W inv k (i * j))))).
  { assert (EE : csum k (fun j0 => cmul (X (q + s * p + m * s * j0)) (W inv k ((j * j0) mod k))) = csum k (fun i => cmul (X (q + s * (p + m * i))) (W inv k (i * j)))).
    { apply csum_ext. intros i Hi. rewrite W_mod by auto. rewrite (Nat.mul_comm j i). do 2 f_equal. lia. }
    rewrite EE. ring. }
  rewrite E3 in H.
  assert (E4 : rsum k (fun j0 => cabs (X (q + s * p + m * s * j0)%nat) + psi A)%R = rsum k (fun i => 1 * cabs (X (q + s * (p + m * i))%nat) + psi A)%R).
  { apply rsum_ext. intros i Hi. rewrite Rmult_1_l. do 3 f_equal. lia. }
  rewrite E4 in H. replace (3 + (k + 3 + 0)) with (k + 6) in H by lia. change (1 + 1) with 2 in H.
  exact H.
Qed.
Lemma aeF_err inv k s T X : 0 < k -> 0 < s -> WtabApx (k * s) T ->
  fft_err inv k s 1 (EE A (Nat.sqrt_up k * (k + 6)) (Nat.sqrt_up k * 2)) X (@aeF F inv k s T X).
Proof.
  intros Hk Hs HT. apply dif_final_err; auto. rewrite <- EE_pow, <- EE_g. apply dif_pass_err; [exact f0|apply sq_up|lra|apply EE_g0|].
  intros p q j Hp Hq Hj. assert (p = 0) as -> by lia. unfold aeF. rewrite any_fun_at by auto. rewrite cscal1.
  assert (E1 : forall e, e < k -> tap 0 1 (T (a_wa inv (k * s) s e)) (W inv k e)).
  { intros e He. exact (lookA inv (k * s) s k T e HT ltac:(lia) Hs Hk ltac:(lia)). }
  pose proof (any_sum_err k j (fun j0 => X (q + s * 0 + 1 * s * j0)) _ _ k E1 Hk Hk) as H.
  apply (ap_mono A _ _ (k + 6) 2 _ _ _ (rsum k (fun j0 => cabs (X (q + s * 0 + 1 * s * j0)%nat) + psi A)%R)) in H; [|lia|lia|lra]. destruct H as [_ H].
  assert (E3 : csum k (fun j0 => cmul (X (q + s * 0 + 1 * s * j0)) (W inv k ((j * j0) mod k))) =
    cmul (W inv (k * 1) (j * 0)) (csum k (fun i => cmul (X (q + s * (0 + 1 * i))) (W inv k (i * j))))).
  { rewrite (Nat.mul_0_r j), W_0. transitivity (csum k (fun i => cmul (X (q + s * (0 + 1 * i))) (W inv k (i * j)))); [|ring].
    apply csum_ext. intros i Hi. rewrite W_mod by auto. rewrite (Nat.mul_comm j i). do 2 f_equal. lia. }
  rewrite E3 in H.
  assert (E4 : rsum k (fun j0 => cabs (X (q + s * 0 + 1 * s * j0)%nat) + psi A)%R = rsum k (fun i => 1 * cabs (X (q + s * (0 + 1 * i))%nat) + psi A)%R).
  { apply rsum_ext. intros i Hi. rewrite Rmult_1_l. do 3 f_equal. lia. }
  rewrite E4 in H. exact H.
Qed.

(** ** the whole transform *)
Lemma radix_cost r l m : radix r -> Forall prime l -> prodl l = r * m -> exists l', Forall prime l' /\ prodl l' = m /\
  kc r * ka r + suml ca l' <= suml ca l /\ kc r * kb r + suml cb l' <= suml cb l.
Proof.
  intros Hr Hl E. destruct Hr as [->|[->|[->|[->| ->]]]].
  - destruct (prime_split 2 l (4 * m) prime_2 Hl ltac:(lia)) as (l1 & P1 & H1 & E1).
    destruct (prime_split 2 l1 (2 * m) prime_2 H1 ltac:(lia)) as (l2 & P2 & H2 & E2).
    destruct (prime_split 2 l2 m prime_2 H2 ltac:(lia)) as (l3 & P3 & H3 & E3). exists l3. split; auto. split; auto.
    rewrite (suml_perm ca _ _ P1), (suml_perm cb _ _ P1). cbn [suml]. rewrite (suml_perm ca _ _ P2), (suml_perm cb _ _ P2). cbn [suml].
    rewrite (suml_perm ca _ _ P3), (suml_perm cb _ _ P3). cbn [suml]. change (ca 2) with 60. change (cb 2) with 15. cbn [kc ka kb]. lia.
  - destruct (prime_split 2 l (2 * m) prime_2 Hl ltac:(lia)) as (l1 & P1 & H1 & E1).
    destruct (prime_split 2 l1 m prime_2 H1 ltac:(lia)) as (l2 & P2 & H2 & E2). exists l2. split; auto. split; auto.
    rewrite (suml_perm ca _ _ P1), (suml_perm cb _ _ P1). cbn [suml]. rewrite (suml_perm ca _ _ P2), (suml_perm cb _ _ P2). cbn [suml].
    change (ca 2) with 60. change (cb 2) with 15. cbn [kc ka kb]. lia.
  - destruct (prime_split 2 l m prime_2 Hl E) as (l1 & P1 & H1 & E1). exists l1. split; auto. split; auto.
    rewrite (suml_perm ca _ _ P1), (suml_perm cb _ _ P1). cbn [suml]. change (ca 2) with 60. change (cb 2) with 15. cbn [kc ka kb]. lia.
  - destruct (prime_split 5 l m prime_5 Hl E) as (l1 & P1 & H1 & E1). exists l1. split; auto. split; auto.
    rewrite (suml_perm ca _ _ P1), (suml_perm cb _ _ P1). cbn [suml]. change (ca 5) with 84. change (cb 5) with 24. cbn [kc ka kb]. lia.
  - destruct (prime_split 3 l m prime_3 Hl E) as (l1 & P1 & H1 & E1). exists l1. split; auto. split; auto.
    rewrite (suml_perm ca _ _ P1), (suml_perm cb _ _ P1). cbn [suml]. change (ca 3) with 52. change (cb 3) with 16. cbn [kc ka kb]. lia.
Qed.
Lemma prime_cost k l m : prime k -> k <> 2 -> Forall prime l -> prodl l = k * m -> exists l', Forall prime l' /\ prodl l' = m /\
  Nat.sqrt_up k * (k + 6) + suml ca l' <= suml ca l /\ Nat.sqrt_up k * 2 + suml cb l' <= suml cb l.
Proof.
  intros Hk H2 Hl E. destruct (prime_split k l m Hk Hl E) as (l1 & P1 & H1 & E1). exists l1. split; auto. split; auto.
  rewrite (suml_perm ca _ _ P1), (suml_perm cb _ _ P1). cbn [suml]. unfold ca at 2, cb at 2. destruct (Nat.eqb_spec k 2); [lia|]. nia.
Qed.

Lemma any_ff_err inv fuel : forall r n s T X ps,
  n <= fuel -> 2 <= n -> 0 < s -> Nat.Odd n -> Nat.Odd r -> 2 <= r -> none_below r n -> mul_ok r r = true ->
  (Z.of_nat n <= 2 ^ 30)%Z -> factors_fit n -> WtabApx (n * s) T -> Forall prime ps -> prodl ps = n ->
  fft_err inv n s 1 (EE A (suml ca ps) (suml cb ps)) X (@any_ff (@C F) (@aeF F inv) (@acF F inv) fuel r n s T X).
Proof.
  induction fuel as [|fuel IH]; intros r n s T X ps Hf Hn Hs Hon Hor Hr Hnb Hm Hz Hfit HT Hps Hpr; [lia|].
  cbn [any_ff].
  destruct (find_factor_spec n r n) as (k & Ek & Hk); auto; try lia.
  rewrite Ek.
  pose proof (smallest_prime _ _ Hk) as Hpk.
  pose proof Hk as (Hk2 & Hkd & Hkm).
  pose proof (Hfit k Hpk Hkd) as Hkk.
  assert (Hk_2 : k <> 2). { intros ->. destruct Hkd as [c Hc]. destruct Hon as [d Hd]. lia. }
  destruct (Nat.eqb_spec k n) as [Ekn|Hne].
  - subst k. destruct (prime_cost n ps 1 Hpk Hk_2 Hps ltac:(lia)) as (l' & _ & _ & C1 & C2).
    eapply fft_err_mono; [exact f0|lra| |apply aeF_err; auto; lia]. apply EE_mono; lia.
  - destruct Hkd as [m Em].
    assert (Em' : n = k * m) by lia.
    assert (En : n / k = m) by (rewrite Em', Nat.mul_comm, Nat.div_mul; lia).
    assert (Hm0 : m <> 0) by (intros ->; lia).
    assert (Hm1 : m <> 1) by (intros ->; lia).
    assert (Hdm : Nat.divide m n) by (exists k; lia).
    assert (Hle : m <= n) by (apply Nat.divide_pos_le; [lia|auto]).
    rewrite En.
    assert (EN : n * s = k * m * s) by nia. assert (EN2 : m * (k * s) = n * s) by nia.
    pose proof (acF_err inv k m s T X ltac:(lia) ltac:(lia) Hs ltac:(rewrite <- EN; auto)) as Ha.
    destruct (prime_cost k ps m Hpk Hk_2 Hps ltac:(lia)) as (l' & Hl' & El' & C1 & C2).
    rewrite Em' at 1. eapply fft_err_mono; [exact f0|lra| |].
    2:{ rewrite <- (Rmult_1_l 1). eapply dif_compose_err; [exact f0|lia|lia|auto|lra|lra| | |exact Ha|].
        + apply EE_ge1.
        + apply (EE_ge1 A (suml ca l') (suml cb l')).
        + apply IH; auto; try lia; try nia.
          * apply (odd_divide _ n); auto.
          * apply (odd_divide _ n); auto. exists m; auto.
          * eapply smallest_none_below; eauto.
          * eapply factors_fit_div; eauto.
          * rewrite EN2. auto. }
    rewrite EE_mul. apply EE_mono; auto.
Qed.

Lemma fft_err_1 inv s E X : (1 <= E)%R -> fft_err inv 1 s 1 E X X.
Proof.
  intros HE V HV. assert (E0 : nrm (1 * s) (vsub X V) = 0%R).
  { apply Rle_antisym; [|apply nrm_pos]. apply nrm_le; [lra|]. rewrite Rmult_0_l.
    replace (rsum (1 * s) (fun i => cnorm2 (vsub X V i))) with (rsum (1 * s) (fun _ => 0%R)).
    - apply Req_le. induction (1 * s) as [|k IH]; cbn [rsum]; lra.
    - apply rsum_ext. intros i Hi. unfold vsub. assert (EV : V i = X i).
      { replace i with (i + s * 0) by lia. rewrite HV by lia. unfold DFT. cbn [csum]. rewrite Nat.mul_0_l, W_0. unfold vscal. rewrite Nat.mul_0_r, Nat.add_0_r. rewrite cscal1. csimp; ring. }
      rewrite EV. replace (csub (X i) (X i)) with (@c0 ROps) by ring. unfold cnorm2. cbn. ring. }
  rewrite E0. pose proof (nrm_pos (1 * s) X). pose proof (sqrt_pos (INR 1)). pose proof (flo_pos (psi A) f0 (1 * s)). apply Rmult_le_pos; [apply Rmult_le_pos; lra|lra].
Qed.

Lemma mixed_ff_err inv fuel : forall n s T X ps,
  n < fuel -> 0 < n -> 0 < s -> (n = 1 -> s = 1) ->
  (Z.of_nat n <= 2 ^ 30)%Z -> factors_fit n -> WtabApx (n * s) T -> Forall prime ps -> prodl ps = n ->
  fft_err inv n s 1 (EE A (suml ca ps) (suml cb ps)) X (@mixed_ff F inv fuel n s T X).
Proof.
  unfold mixed_ff.
  induction fuel as [|fuel IH]; intros n s T X ps Hf Hn Hs Hn1 Hz Hfit HT Hps Hpr; [lia|].
  assert (Hstep : forall r, radix r -> n mod r = 0 -> 2 <= n ->
    fft_err inv n s 1 (EE A (suml ca ps) (suml cb ps)) X (step_ff (@eF F inv) (@cF F inv) (fft_ff (@eF F inv) (@cF F inv) (@aeF F inv) (@acF F inv) fuel) r n s T X)).
  { intros r Hr Hmod Hn2. unfold step_ff.
    assert (Hr0 : 2 <= r) by (destruct Hr as [->|[->|[->|[->| ->]]]]; lia).
    destruct (Nat.eqb_spec n r) as [E|Hne].
    - rewrite E in *. destruct (radix_cost r ps 1 Hr Hps ltac:(lia)) as (l' & _ & _ & C1 & C2).
      eapply fft_err_mono; [exact f0|lra| |apply eF_err; auto]. apply EE_mono; lia.
    - assert (En : n = r * (n / r)) by (apply Nat.div_exact in Hmod; lia).
      set (m := n / r) in *. clearbody m.
      assert (m <> 0) by (intros ->; lia). assert (m <> 1) by (intros ->; lia).
      assert (Hle : m <= n) by nia.
      assert (EN : n * s = r * m * s) by (rewrite En; reflexivity). assert (EN2 : m * (r * s) = n * s) by (rewrite EN; lia).
      pose proof (cF_err inv r m s T X Hr ltac:(lia) Hs ltac:(rewrite <- EN; auto)) as Ha.
      destruct (radix_cost r ps m Hr Hps ltac:(lia)) as (l' & Hl' & El' & C1 & C2).
      rewrite En at 1. eapply fft_err_mono; [exact f0|lra| |].
      2:{ rewrite <- (Rmult_1_l 1). eapply dif_compose_err; [exact f0|lia|lia|auto|lra|lra| | |exact Ha|].
          + apply EE_ge1.
          + apply (EE_ge1 A (suml ca l') (suml cb l')).
          + apply IH; auto; try lia; try nia.
            * eapply factors_fit_div; [exact Hfit|]. exists r. lia.
            * rewrite EN2. auto. }
      rewrite EE_mul. apply EE_mono; auto. }
  cbn [fft_ff].
  destruct (Nat.ltb_spec (n * s) 2) as [H2|H2].
  { assert (n = 1) by nia. rewrite (Hn1 H). rewrite H. apply fft_err_1. apply EE_ge1. }
  assert (Hbig : 2 <= n) by (destruct (Nat.eq_dec n 1) as [->|]; [rewrite (Hn1 eq_refl) in H2; lia|lia]).
  destruct (Nat.eqb_spec (n mod 8) 0) as [E8|E8]; [apply Hstep; auto; unfold radix; auto|].
  destruct (Nat.eqb_spec (n mod 4) 0) as [E4|E4]; [apply Hstep; auto; unfold radix; auto|].
  destruct (Nat.eqb_spec (n mod 2) 0) as [E22|E22]; [apply Hstep; auto; unfold radix; auto|].
  destruct (Nat.eqb_spec (n mod 5) 0) as [E5|E5]; [apply Hstep; auto; unfold radix; auto|].
  destruct (Nat.eqb_spec (n mod 3) 0) as [E3|E3]; [apply Hstep; auto; unfold radix; auto 10|].
  assert (Hodd : Nat.Odd n).
  { destruct (Nat.Even_or_Odd n) as [[c Hc']|H]; auto. exfalso. apply E22. apply Nat.mod_divide; [lia|]. exists c. lia. }
  apply any_ff_err; auto; try lia.
  - exists 3. lia.
  - intros e He2 Hlt Hd.
    assert (Hnd : forall a b, Nat.divide a b -> 0 < a -> n mod a <> 0 -> ~ Nat.divide b n).
    { intros a b Hab Ha Hna Hbn. apply Hna. apply Nat.mod_divide; [lia|]. eapply Nat.divide_trans; eauto. }
    assert (Hcase : e = 2 \/ e = 3 \/ e = 4 \/ e = 5 \/ e = 6) by lia.
    destruct Hcase as [->|[->|[->|[->| ->]]]].
    + apply (Hnd 2 2); auto using Nat.divide_refl; lia.
    + apply (Hnd 3 3); auto using Nat.divide_refl; lia.
    + apply (Hnd 2 4); auto; exists 2; lia.
    + apply (Hnd 5 5); auto using Nat.divide_refl; lia.
    + apply (Hnd 2 6); auto; exists 3; lia.
Qed.
End Mixed.
