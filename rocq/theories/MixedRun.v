(** * Mixed-radix FFT: memory safety, footprint and the function computed (any arithmetic) *)

From Coq Require Import List Arith ZArith Bool Lia.
From Verif Require Import Scalar Mem MemFacts Omp OmpFacts Lanes Butterfly Stage CoreStage ModelMixed MixedStage FactorFacts MixedDrive.
Import ListNotations.

Section MixedRun.
Context {Op : Ops}.
Notation prog := (prog C).
Notation phase := (phase (V:=C)).

(** ** kernel data *)
Definition k_tv (inv : bool) (r : nat) (N sp : nat) : list nat :=
  match r with
  | 8 | 4 => if inv then [N - 1*sp; N - 2*sp; N - 3*sp] else [1*sp; 2*sp; 3*sp]
  | 2 => if inv then [N - sp] else [sp]
  | 5 => if inv then [N / 5 * 4; N - sp] else [N / 5; sp]
  | _ => if inv then [N / 3 * 2; N - sp] else [N / 3; sp]
  end.
Definition k_ts (inv : bool) (r : nat) (N p : nat) : list nat :=
  match r with 2 => if inv then [N - p] else [p] | _ => [p] end.
Definition k_fv (inv : bool) (r : nat) : list C -> list C :=
  match r with
  | 8 => if inv then invcore8_fv else fwdcore8_fv
  | 4 => if inv then invcore4_fv else fwdcore4_fv
  | 2 => core2_f
  | 5 => core5_f
  | _ => core3_f
  end.
Definition k_fs (inv : bool) (r : nat) : list C -> list C :=
  match r with
  | 8 => if inv then invcore8_fs else fwdcore8_fs
  | 4 => if inv then invcore4_fs else fwdcore4_fs
  | _ => core2_f
  end.
Definition k_etw (inv : bool) (r s : nat) : list nat :=
  match r with
  | 8 | 4 | 2 => []
  | 5 => if inv then [4 * s] else [s]
  | _ => if inv then [2 * s] else [s]
  end.
Definition k_ef (inv : bool) (r : nat) : list C -> list C :=
  match r with
  | 8 => if inv then i8 else f8
  | 4 => if inv then i4 else f4
  | 2 => b2
  | 5 => end5_f
  | _ => end3_f
  end.

Definition eF (inv : bool) (r s : nat) := dif_fun r 1 s (fun _ => k_etw inv r s) (k_ef inv r).
Definition is2 (r : nat) : bool := match r with 8 | 4 | 2 => true | _ => false end.
Definition k_tw inv r m s (p : nat) := if is2 r then ctw (r * m) s (k_tv inv r) (k_ts inv r) p else stw (r * m) s (k_tv inv r) p.
Definition k_f inv r s := if is2 r then cf s (k_fv inv r) (k_fs inv r) else k_fv inv r.
Definition cF (inv : bool) (r m s : nat) := dif_fun r m s (k_tw inv r m s) (k_f inv r s).
Definition a_wa (inv : bool) (N ms e : nat) : nat := if inv then N - ms * e else ms * e.
Definition a_w2 (inv : bool) (N s i p : nat) : nat := if inv then N - i * (s * p) else i * (s * p).
Definition aeF (inv : bool) (k s : nat) := any_fun k 1 s 0 (a_wa inv (k * s) s) (fun _ _ => []) (fun z _ => z).
Definition acF (inv : bool) (k m s : nat) :=
  any_fun k m s 1 (a_wa inv (m * k * s) (m * s)) (fun i p => [a_w2 inv (m * k * s) s i p]) cmul.

(** the function computed by fwdfft/invfft *)
Definition mixed_ff (inv : bool) := fft_ff (eF inv) (cF inv) (aeF inv) (acF inv).

(** ** lengths *)
Ltac len_case H vs :=
  repeat (destruct vs as [|? vs]; cbn in H; try discriminate H; try lia).

Lemma k_ef_len inv r s vs : radix r -> length vs = length (k_etw inv r s) + r -> length (k_ef inv r vs) = r.
Proof.
  intros [->|[->|[->|[->| ->]]]] H; destruct inv; cbn in H |- *; do 9 (destruct vs as [|? vs]; try discriminate H; try reflexivity).
Qed.
Lemma k_f_len inv r m s p vs : radix r -> length vs = length (k_tw inv r m s p) + r -> length (k_f inv r s vs) = r.
Proof.
  unfold k_f, k_tw, ctw, cf, stw.
  intros [->|[->|[->|[->| ->]]]]; cbn [is2]; destruct (2 <=? s), inv; cbn [k_tv k_ts k_fv k_fs length]; intros H;
    do 12 (destruct vs as [|? vs]; try discriminate H; try reflexivity).
Qed.
Lemma k_etw_lt inv r s e : radix r -> 0 < s -> In e (k_etw inv r s) -> e < S (r * s).
Proof.
  intros [->|[->|[->|[->| ->]]]] Hs; destruct inv; cbn [k_etw In]; intros H; repeat destruct H as [<-|H]; try contradiction; lia.
Qed.
Lemma k_tw_lt inv r m s p e : radix r -> 0 < s -> p < m -> In e (k_tw inv r m s p) -> e < S (r * m * s).
Proof.
  unfold k_tw, ctw, stw. intros Hr Hs Hp.
  assert (Hsp : s * p <= m * s) by nia.
  assert (H5 : 5 * m * s / 5 = m * s) by (replace (5 * m * s) with (m * s * 5) by lia; apply Nat.div_mul; lia).
  assert (H3 : 3 * m * s / 3 = m * s) by (replace (3 * m * s) with (m * s * 3) by lia; apply Nat.div_mul; lia).
  destruct Hr as [->|[->|[->|[->| ->]]]]; cbn [is2]; rewrite ?H5, ?H3;
    destruct (2 <=? s), inv; unfold k_tv, k_ts; rewrite ?H5, ?H3; cbn [In]; intros H;
    set (c := m * s) in *; try (assert (p <= c) by (unfold c; nia));
    rewrite ?Nat.mul_assoc in *; try replace (8 * m * s) with (8 * c) by (unfold c; lia);
    try replace (4 * m * s) with (4 * c) by (unfold c; lia);
    try replace (2 * m * s) with (2 * c) by (unfold c; lia);
    try replace (5 * m * s) with (5 * c) by (unfold c; lia);
    try replace (3 * m * s) with (3 * c) by (unfold c; lia);
    repeat destruct H as [<-|H]; try contradiction; lia.
Qed.

(** ** kernels are instances of the loop skeletons *)
Definition ekS (inv : bool) (r s : nat) (eo : bool) (x y W : ptr) : prog unit :=
  match r with
  | 8 => (if inv then invend8 else fwdend8) s eo x y
  | 4 => (if inv then invend4 else fwdend4) s eo x y
  | 2 => (if inv then invend2 else fwdend2) s eo x y
  | 5 => (if inv then invend5 else fwdend5) s eo x y W
  | _ => (if inv then invend3 else fwdend3) s eo x y W
  end.
Definition ckS (inv : bool) (r n s : nat) (x y W : ptr) : prog unit :=
  match r with
  | 8 => (if inv then invcore8 else fwdcore8) n s x y W
  | 4 => (if inv then invcore4 else fwdcore4) n s x y W
  | 2 => (if inv then invcore2 else fwdcore2) n s x y W
  | 5 => (if inv then invcore5 else fwdcore5) n s x y W
  | _ => (if inv then invcore3 else fwdcore3) n s x y W
  end.
Definition ekP (inv : bool) (r s : nat) (eo : bool) (x y W : ptr) : list phase :=
  [match r with
  | 8 => (if inv then invend8p else fwdend8p) s eo x y
  | 4 => (if inv then invend4p else fwdend4p) s eo x y
  | 2 => (if inv then invend2p else fwdend2p) s eo x y
  | 5 => (if inv then invend5p else fwdend5p) s eo x y W
  | _ => (if inv then invend3p else fwdend3p) s eo x y W
  end].
Definition ckP (inv : bool) (r n s : nat) (x y W : ptr) : list phase :=
  [match r with
  | 8 => (if inv then invcore8p else fwdcore8p) n s x y W
  | 4 => (if inv then invcore4p else fwdcore4p) n s x y W
  | 2 => (if inv then invcore2p else fwdcore2p) n s x y W
  | 5 => (if inv then invcore5p else fwdcore5p) n s x y W
  | _ => (if inv then invcore3p else fwdcore3p) n s x y W
  end].
Definition aekS (inv : bool) k s x y W : prog unit :=
  for_ s (fun q => (if inv then invany_end_body else fwdany_end_body) k s x y W q).
Definition ackS (inv : bool) k m s x y W : prog unit :=
  for_ m (fun p => for_ s (fun q => (if inv then invany_core_body else fwdany_core_body) k m s x y W p q)).
Definition aekP (inv : bool) k s x y W : list phase :=
  [(s, fun q => (if inv then invany_end_body else fwdany_end_body) k s x y W q)].
Definition ackP (inv : bool) k m s x y W : list phase :=
  [(m * s, fun h => (if inv then invany_core_body else fwdany_core_body) k m s x y W (h / s) (h mod s))].

Lemma fwdfft_drive : fwdfft = drive _ (fun p q => p ;;; q) skip UB (ekS false) (ckS false) (aekS false) (ackS false) (fun N x y => for_ N (copy_body x y)).
Proof. reflexivity. Qed.
Lemma invfft_drive : invfft = drive _ (fun p q => p ;;; q) skip UB (ekS true) (ckS true) (aekS true) (ackS true) (fun N x y => for_ N (copy_body x y)).
Proof. reflexivity. Qed.
Lemma fwdfftp_drive : fwdfftp = drive _ (@List.app phase) [] [single UB] (ekP false) (ckP false) (aekP false) (ackP false) (fun N x y => [(N, copy_body x y)]).
Proof. reflexivity. Qed.
Lemma invfftp_drive : invfftp = drive _ (@List.app phase) [] [single UB] (ekP true) (ckP true) (aekP true) (ackP true) (fun N x y => [(N, copy_body x y)]).
Proof. reflexivity. Qed.

Definition fftS (inv : bool) := if inv then invfft else fwdfft.
Definition fftP (inv : bool) := if inv then invfftp else fwdfftp.
Lemma fftS_drive inv : fftS inv = drive _ (fun p q => p ;;; q) skip UB (ekS inv) (ckS inv) (aekS inv) (ackS inv) (fun N x y => for_ N (copy_body x y)).
Proof. destruct inv; reflexivity. Qed.
Lemma fftP_drive inv : fftP inv = drive _ (@List.app phase) [] [single UB] (ekP inv) (ckP inv) (aekP inv) (ackP inv) (fun N x y => [(N, copy_body x y)]).
Proof. destruct inv; reflexivity. Qed.

(** *** ends *)
Lemma ekS_eq inv r s eo x y W : radix r ->
  ekS inv r s eo x y W =
  (if is2 r then end_v r s x (Xout eo x y) W (k_etw inv r s) (k_ef inv r) else end_s r s x (Xout eo x y) W (k_etw inv r s) (k_ef inv r)).
Proof. intros [->|[->|[->|[->| ->]]]]; destruct inv; reflexivity. Qed.
Lemma ekP_eq inv r s eo x y W : radix r ->
  ekP inv r s eo x y W =
  [if is2 r then end_vp r s x (Xout eo x y) W (k_etw inv r s) (k_ef inv r) else end_sp r s x (Xout eo x y) W (k_etw inv r s) (k_ef inv r)].
Proof. intros [->|[->|[->|[->| ->]]]]; destruct inv; reflexivity. Qed.
Lemma ckS_eq inv r n s x y W : radix r ->
  ckS inv r n s x y W =
  (if is2 r then core_v r n s x y W (k_tv inv r) (k_ts inv r) (k_fv inv r) (k_fs inv r)
   else core_s r n s x y W (k_tv inv r) (k_fv inv r)).
Proof. intros [->|[->|[->|[->| ->]]]]; destruct inv; reflexivity. Qed.
Lemma ckP_eq inv r n s x y W : radix r ->
  ckP inv r n s x y W =
  [if is2 r then core_vp r n s x y W (k_tv inv r) (k_ts inv r) (k_fv inv r) (k_fs inv r)
   else core_sp r n s x y W (k_tv inv r) (k_fv inv r)].
Proof. intros [->|[->|[->|[->| ->]]]]; destruct inv; reflexivity. Qed.

Lemma is2_even r s : radix r -> is2 r = true -> even_or_1 s \/ r = 5 \/ r = 3 -> even_or_1 s.
Proof. intros _ H [H0|[->| ->]]; auto; discriminate. Qed.
Lemma radix_pos r : radix r -> 0 < r.
Proof. intros [->|[->|[->|[->| ->]]]]; lia. Qed.

Lemma Xout_W eo x y W N : ok3 x y W N -> disjR W (S N) (Xout eo x y) N.
Proof. intros (H1 & H2 & H3). destruct eo; auto. Qed.
Lemma Xout_x eo x y W N : ok3 x y W N -> disjR x N (Xout eo x y) N \/ Xout eo x y = x.
Proof. intros (H1 & H2 & H3). destruct eo; auto. Qed.

Lemma ekS_C inv r s eo x y W : radix r -> 0 < s -> (even_or_1 s \/ r = 5 \/ r = 3) -> ok3 x y W (r * s) ->
  Computes (ekS inv r s eo x y W) x (r * s) W (Lt (S (r * s))) (inR (Xout eo x y) (r * s)) (Xout eo x y) (r * s) (eF inv r s).
Proof.
  intros Hr Hs Hev Hok. rewrite ekS_eq by auto.
  pose proof (radix_pos r Hr). pose proof (Xout_W eo _ _ _ _ Hok). pose proof (Xout_x eo _ _ _ _ Hok).
  destruct (is2 r) eqn:E2.
  - apply end_v_C; auto.
    + intros e. apply k_etw_lt; auto.
    + intros vs. apply k_ef_len; auto.
    + eapply is2_even; eauto.
  - apply end_s_C; auto.
    + intros e. apply k_etw_lt; auto.
    + intros vs. apply k_ef_len; auto.
Qed.
Lemma ekP_R inv r s eo x y W : radix r -> 0 < s -> (even_or_1 s \/ r = 5 \/ r = 3) -> ok3 x y W (r * s) ->
  RComputes (ekP inv r s eo x y W) x (r * s) W (Lt (S (r * s))) (inR (Xout eo x y) (r * s)) (Xout eo x y) (r * s) (eF inv r s).
Proof.
  intros Hr Hs Hev Hok. rewrite ekP_eq by auto.
  pose proof (radix_pos r Hr). pose proof (Xout_W eo _ _ _ _ Hok). pose proof (Xout_x eo _ _ _ _ Hok).
  destruct (is2 r) eqn:E2.
  - apply end_vp_R; auto.
    + intros e. apply k_etw_lt; auto.
    + intros vs. apply k_ef_len; auto.
    + eapply is2_even; eauto.
  - apply end_sp_R; auto.
    + intros e. apply k_etw_lt; auto.
    + intros vs. apply k_ef_len; auto.
Qed.
Lemma ckS_C inv r m s x y W : radix r -> 0 < m -> 0 < s -> (even_or_1 s \/ r = 5 \/ r = 3) -> ok3 x y W (r * m * s) ->
  Computes (ckS inv r (r * m) s x y W) x (r * m * s) W (Lt (S (r * m * s))) (inR y (r * m * s)) y (r * m * s) (cF inv r m s).
Proof.
  intros Hr Hm Hs Hev (Hxy & HWx & HWy). rewrite ckS_eq by auto. pose proof (radix_pos r Hr).
  pose proof (fun p e => k_tw_lt inv r m s p e Hr Hs) as Hl. pose proof (fun p vs => k_f_len inv r m s p vs Hr) as Hk.
  unfold cF. unfold k_tw, k_f in *. destruct (is2 r) eqn:E2.
  - pose proof (is2_even r s Hr E2 Hev) as He.
    eapply Computes_ext; [apply (core_v_C r (r * m) s x y W (k_tv inv r) (k_ts inv r) (k_fv inv r) (k_fs inv r) m); eauto|reflexivity].
  - eapply Computes_ext; [apply (core_s_C r (r * m) s x y W (k_tv inv r) (k_fv inv r) m); eauto|reflexivity].
Qed.
Lemma ckP_R inv r m s x y W : radix r -> 0 < m -> 0 < s -> (even_or_1 s \/ r = 5 \/ r = 3) -> ok3 x y W (r * m * s) ->
  RComputes (ckP inv r (r * m) s x y W) x (r * m * s) W (Lt (S (r * m * s))) (inR y (r * m * s)) y (r * m * s) (cF inv r m s).
Proof.
  intros Hr Hm Hs Hev (Hxy & HWx & HWy). rewrite ckP_eq by auto. pose proof (radix_pos r Hr).
  pose proof (fun p e => k_tw_lt inv r m s p e Hr Hs) as Hl. pose proof (fun p vs => k_f_len inv r m s p vs Hr) as Hk.
  unfold cF. unfold k_tw, k_f in *. destruct (is2 r) eqn:E2.
  - pose proof (is2_even r s Hr E2 Hev) as He.
    eapply RComputes_ext; [apply (core_vp_R r (r * m) s x y W (k_tv inv r) (k_ts inv r) (k_fv inv r) (k_fs inv r) m); eauto|reflexivity].
  - eapply RComputes_ext; [apply (core_sp_R r (r * m) s x y W (k_tv inv r) (k_fv inv r) m); eauto|reflexivity].
Qed.

(** *** arbitrary factors *)
Lemma any_acc_ext i k xa xa' wa J : (forall j, j < J -> xa j = xa' j) -> any_acc i k xa wa J = any_acc i k xa' wa J.
Proof.
  induction J as [|J IH]; intros H; [reflexivity|]. cbn [any_acc]. rewrite IH by auto. rewrite H by auto. reflexivity.
Qed.

Lemma any_end_eq (inv : bool) k s x y W q :
  (if inv then invany_end_body else fwdany_end_body) k s x y W q =
  for_ k (fun i => any_one k 1 s x y W (a_wa inv (k * s) s) (fun _ _ => []) (fun z _ => z) (0, q, i)).
Proof.
  destruct inv; unfold invany_end_body, fwdany_end_body; apply run_for_ext; intros i Hi; unfold any_one; cbn [fst snd];
    rewrite Nat.mul_0_r, Nat.mul_0_l, !Nat.add_0_r, Nat.mul_1_l; reflexivity.
Qed.
Lemma any_core_eq (inv : bool) k m s x y W p q :
  (if inv then invany_core_body else fwdany_core_body) k m s x y W p q =
  for_ k (fun i => any_one k m s x y W (a_wa inv (m * k * s) (m * s)) (fun i p => [a_w2 inv (m * k * s) s i p]) cmul (p, q, i)).
Proof. destruct inv; reflexivity. Qed.

Lemma mul_ok_lt k i j : mul_ok k k = true -> i < k -> j < k -> mul_ok i j = true.
Proof. intros H Hi Hj. eapply mul_ok_le; [| |exact H]; lia. Qed.

Lemma a_wa_lt inv k ms e : e < k -> a_wa inv (k * ms) ms e < S (k * ms).
Proof. intros He. unfold a_wa. destruct inv; nia. Qed.
Lemma a_w2_lt inv k m s i p : i < k -> p < m -> a_w2 inv (m * k * s) s i p < S (m * k * s).
Proof.
  intros Hi Hp. unfold a_w2. destruct inv; [lia|].
  assert (i * (s * p) <= k * (s * m)) by (apply Nat.mul_le_mono; nia). nia.
Qed.

Section AnyInst.
Variables (inv : bool) (k m s : nat) (x y W : ptr).
Hypothesis Hk : 0 < k.
Hypothesis Hm : 0 < m.
Hypothesis Hs : 0 < s.
Hypothesis Hkk : mul_ok k k = true.

Section End.
Hypothesis Hok : ok3 x y W (k * s).
Let HN : k * s = k * 1 * s.
Proof. lia. Qed.
Let Hwa : forall e, e < k -> a_wa inv (k * s) s e < S (k * s).
Proof. intros e He. apply a_wa_lt. auto. Qed.
Let Hw2 : forall i p e, i < k -> p < 1 -> In e (@nil nat) -> e < S (k * s).
Proof. intros i p e _ _ []. Qed.

Lemma aekS_C : Computes (aekS inv k s x y W) x (k * s) W (Lt (S (k * s))) (inR y (k * s)) y (k * s) (aeF inv k s).
Proof.
  destruct Hok as (Hxy & HWx & HWy).
  pose proof (any_C k 1 s (k * s) (Lt (S (k * s))) 0 x y W (a_wa inv (k * s) s) (fun _ _ => []) (fun z _ => z)
    HN Hk (le_n 1) Hs (fun _ _ => eq_refl) Hwa Hw2 HWy Hxy (fun i j => mul_ok_lt k i j Hkk) (fun _ _ _ _ => eq_refl)) as H.
  assert (E : aekS inv k s x y W = for_ s (fun q => for_ k (fun i => any_one k 1 s x y W (a_wa inv (k * s) s) (fun _ _ => []) (fun z _ => z) (0, q, i)))).
  { unfold aekS. apply run_for_ext. intros q _. apply any_end_eq. }
  rewrite E. exact H.
Qed.
Lemma aekP_R : RComputes (aekP inv k s x y W) x (k * s) W (Lt (S (k * s))) (inR y (k * s)) y (k * s) (aeF inv k s).
Proof.
  destruct Hok as (Hxy & HWx & HWy).
  eapply Splits_RComputes.
  - eapply Splits_ext; [|apply (Splits_n (1 * s) s); [lia|]; apply (any_split_par k 1 s (k * s) (Lt (S (k * s))) 0 x y W (a_wa inv (k * s) s) (fun _ _ => []) (fun z _ => z)); auto].
    + intros h Hh. cbv beta. rewrite any_end_eq. rewrite Nat.div_small, Nat.mod_small by auto. reflexivity.
    + intros i j. apply mul_ok_lt; auto.
  - apply (any_disj k 1 s (k * s) (Lt (S (k * s))) 0 x y W (a_wa inv (k * s) s) (fun _ _ => []) (fun z _ => z)); auto.
  - apply (any_cov k 1 s (k * s) (Lt (S (k * s))) 0 x y W (a_wa inv (k * s) s) (fun _ _ => []) (fun z _ => z)); auto.
Qed.
End End.

Section Core.
Hypothesis Hok : ok3 x y W (k * m * s).
Let Hwa : forall e, e < k -> a_wa inv (m * k * s) (m * s) e < S (k * m * s).
Proof. intros e He. replace (m * k * s) with (k * (m * s)) by lia. replace (k * m * s) with (k * (m * s)) by lia. apply a_wa_lt. auto. Qed.
Let Hw2 : forall i p e, i < k -> p < m -> In e [a_w2 inv (m * k * s) s i p] -> e < S (k * m * s).
Proof. intros i p e Hi Hp [<-|[]]. replace (k * m * s) with (m * k * s) by lia. apply a_w2_lt; auto. Qed.

Lemma ackS_C : Computes (ackS inv k m s x y W) x (k * m * s) W (Lt (S (k * m * s))) (inR y (k * m * s)) y (k * m * s) (acF inv k m s).
Proof.
  destruct Hok as (Hxy & HWx & HWy).
  pose proof (any_C k m s (k * m * s) (Lt (S (k * m * s))) 1 x y W (a_wa inv (m * k * s) (m * s)) (fun i p => [a_w2 inv (m * k * s) s i p]) cmul
    eq_refl Hk Hm Hs (fun _ _ => eq_refl) Hwa Hw2 HWy Hxy (fun i j => mul_ok_lt k i j Hkk)) as H.
  unfold ackS. destruct inv; apply H; discriminate.
Qed.
Lemma ackP_R : RComputes (ackP inv k m s x y W) x (k * m * s) W (Lt (S (k * m * s))) (inR y (k * m * s)) y (k * m * s) (acF inv k m s).
Proof.
  destruct Hok as (Hxy & HWx & HWy).
  pose proof (any_R k m s (k * m * s) (Lt (S (k * m * s))) 1 x y W (a_wa inv (m * k * s) (m * s)) (fun i p => [a_w2 inv (m * k * s) s i p]) cmul
    eq_refl Hk Hm Hs (fun _ _ => eq_refl) Hwa Hw2 HWy Hxy (fun i j => mul_ok_lt k i j Hkk)) as H.
  unfold ackP. destruct inv; apply H; discriminate.
Qed.
End Core.
End AnyInst.

Lemma skip_C x N W NW Ws : Computes (V:=C) skip x N W NW Ws x N (fun T X => X).
Proof. intros m T X Hx Ht Ha. split; [exact I|]. exists m. auto. Qed.
Lemma nil_R x N W NW Ws : RComputes (V:=C) [] x N W NW Ws x N (fun T X => X).
Proof. intros m T X Hx Ht Ha. split; [exact I|]. exists m. cbn. auto. Qed.

(** ** the whole recursion *)
Section Whole.
Variables (inv : bool) (fuel n s : nat) (eo : bool) (x y W : ptr).
Hypothesis Hf : n < fuel.
Hypothesis Hn : 0 < n.
Hypothesis Hs : 0 < s.
Hypothesis Heo : n * s < 2 -> eo = false.
Hypothesis Hn1 : n = 1 -> s = 1.
Hypothesis Hev : even_or_1 s \/ Nat.Odd n.
Hypothesis Hz : (Z.of_nat n <= 2 ^ 30)%Z.
Hypothesis Hfit : factors_fit n.
Hypothesis Hok : ok3 x y W (n * s).

Lemma fftS_C : Computes (fftS inv fuel n s eo x y W) x (n * s) W (Lt (S (n * s)))
  (fun l => inR x (n * s) l \/ inR y (n * s) l) (Xout eo x y) (n * s) (mixed_ff inv fuel n s).
Proof.
  rewrite fftS_drive. unfold mixed_ff.
  apply (drive_C (V:=C) _ _ _ _ _ _ _ _ _ Computes (eF inv) (cF inv) (aeF inv) (acF inv)); auto.
  - intros. eapply Computes_seq; eauto.
  - intros. eapply Computes_ext; eauto.
  - intros. eapply Computes_weaken; eauto.
  - intros. apply skip_C.
  - intros. apply ekS_C; auto.
  - intros. apply ckS_C; auto.
  - intros. apply (aekS_C inv k 1); auto.
  - intros. apply ackS_C; auto.
  - intros. apply copy_C; auto.
Qed.
Lemma fftP_R : RComputes (fftP inv fuel n s eo x y W) x (n * s) W (Lt (S (n * s)))
  (fun l => inR x (n * s) l \/ inR y (n * s) l) (Xout eo x y) (n * s) (mixed_ff inv fuel n s).
Proof.
  rewrite fftP_drive. unfold mixed_ff.
  apply (drive_C (V:=C) _ _ _ _ _ _ _ _ _ RComputes (eF inv) (cF inv) (aeF inv) (acF inv)); auto.
  - intros. eapply RComputes_app; eauto.
  - intros. eapply RComputes_ext; eauto.
  - intros. eapply RComputes_weaken; eauto.
  - intros. apply nil_R.
  - intros. apply ekP_R; auto.
  - intros. apply ckP_R; auto.
  - intros. apply (aekP_R inv k 1); auto.
  - intros. apply ackP_R; auto.
  - intros. apply copy_R; auto.
Qed.
End Whole.

End MixedRun.
