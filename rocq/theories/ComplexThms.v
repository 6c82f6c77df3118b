(** * Theorems about the complex transform object (class FFT behind ComplexFFT): proofs *)

From Coq Require Import Reals List Arith ZArith Bool Lia Lra Psatz.
From Verif Require Import Scalar RealOps Spec DftFacts Mem MemFacts Omp OmpFacts Lanes Stage Object ObjectFacts Engine ApiSpec
  FactorFacts SixClass ModelApi History ApiFacts ApiExact Footprint.
Import ListNotations.

(** ** admissible lengths *)
Lemma factors_fit_small n : 0 < n -> (Z.of_nat n <= 46340)%Z -> factors_fit n.
Proof.
  intros H0 H p [Hp _] Hd. apply Nat.divide_pos_le in Hd; auto. unfold mul_ok, INT_MAX. apply Z.leb_le. nia.
Qed.
Lemma prime_mult_nat p a b : prime p -> Nat.divide p (a * b) -> Nat.divide p a \/ Nat.divide p b.
Proof.
  intros [Hp Hd] H. destruct (Hd (Nat.gcd p a)) as [E|E].
  - apply Nat.gcd_divide_l.
  - right. eapply Nat.gauss; eauto.
  - left. rewrite <- E. apply Nat.gcd_divide_r.
Qed.
Lemma factors_fit_mul a b : factors_fit a -> factors_fit b -> factors_fit (a * b).
Proof. intros Ha Hb p Hp H. destruct (prime_mult_nat p a b Hp H); auto. Qed.
Lemma factors_fit_pow2 n : factors_fit (2 ^ n).
Proof.
  induction n as [|n IH]; cbn [Nat.pow]; [|apply factors_fit_mul; auto]; apply factors_fit_small; lia.
Qed.

(** ** a boolean version of membership *)
Definition inRb (p : ptr) (n : nat) (l : loc) : bool := (fst l =? fst p) && (snd p <=? snd l) && (snd l <? snd p + n).
Lemma inRb_spec p n l : inRb p n l = true <-> inR p n l.
Proof.
  unfold inRb, inR, padd. split.
  - intros H. apply andb_prop in H as [H H3]. apply andb_prop in H as [H1 H2].
    apply Nat.eqb_eq in H1. apply Nat.leb_le in H2. apply Nat.ltb_lt in H3.
    exists (snd l - snd p). split; [lia|]. destruct l; cbn in *. f_equal; lia.
  - intros (i & Hi & ->). cbn [fst snd]. rewrite Nat.eqb_refl, (proj2 (Nat.leb_le _ _)), (proj2 (Nat.ltb_lt _ _)) by lia. reflexivity.
Qed.
Definition bufb (lo hi : nat) (l : loc) : bool := (lo <=? fst l) && (fst l <=? hi).
Lemma bufb_spec lo hi l : bufb lo hi l = true <-> lo <= fst l <= hi.
Proof. unfold bufb. rewrite andb_true_iff, !Nat.leb_le. tauto. Qed.

Section AnyArithmetic.
Context {Op : Ops}.
Notation mem := (mem C).

(** memory with x set to X *)
Definition poke (x : ptr) (N : nat) (X : nat -> C) (m : mem) : mem :=
  fun l => if inRb x N l then Val (X (snd l - snd x)) else m l.
Lemma poke_holds x N X m : holds (poke x N X m) x N X.
Proof.
  intros i Hi. unfold poke. rewrite (proj2 (inRb_spec x N (x +! i)) (inR_i x N i Hi)). cbn. do 2 f_equal. lia.
Qed.
Lemma poke_out x N X m l : fst l <> fst x -> poke x N X m l = m l.
Proof. intros H. unfold poke, inRb. destruct (Nat.eqb_spec (fst l) (fst x)); [contradiction|reflexivity]. Qed.

Lemma SetsUp_Outcome own c (r : mem -> Prop) m : SetsUp own c r ->
  exists m', Outcome c m m' /\ r m' /\ (forall l, ~ own (fst l) -> m' l = m l).
Proof.
  intros H. destruct (H m) as (m' & Ho & Hr & Hq & Hf). exists m'. split; auto. apply acts_Outcome; auto.
Qed.

Lemma fft_h_setup b o m m' N : fft_history b o m -> call_exec (fft_setup b N) m m' -> fft_history b (Some N) m'.
Proof. intros H He. exact (h_setup (fft_own b) (fun _ n => Some n) (fft_setup b) (fft_legal b) o m m' N H He). Qed.

(** every length can be set up from every history, and then used on any data *)
Lemma fft_history_inhabited b o m0 N x X : fft_history b o m0 -> ~ fft_own b (fst x) ->
  exists m, fft_history b (Some N) m /\ holds m x N X.
Proof.
  intros H Hx. destruct (SetsUp_Outcome _ _ _ m0 (fft_setup_ok b N)) as (m1 & [(m2 & He) _ _ _ _ _] & _).
  exists (poke x N X m2). split; [|apply poke_holds].
  eapply h_other; [eapply fft_h_setup; eauto|].
  intros l Hl. apply poke_out. intros E. apply Hx. rewrite <- E. auto.
Qed.

Lemma fft_call_any b N k x m X : valid_length N -> fft_history b (Some N) m -> ~ fft_own b (fst x) -> holds m x N X ->
  exists m', Outcome (fft_run b N k x) m m' /\ holds m' x N (fft0_F N k X) /\
    (forall l, ~ inR x N l -> ~ inR (b + 3, 0) N l -> m' l = m l) /\ fft_history b (Some N) m'.
Proof.
  intros HN Hh Hx HX. pose proof (fft_history_ready b N m Hh HN) as Hr.
  destruct (fft_run_ok b N k x m X HN Hx Hr HX) as (m' & Hc & Hv).
  pose proof (CExec_Outcome _ _ _ _ Hc) as Ho. exists m'. split; [|split; [|split]]; auto.
  - intros l H1 H2. destruct Hc as (_ & _ & Hc). apply Hc. intros [H|H]; auto.
  - destruct Ho as [(m2 & He) Hu _ _ _ _].
    eapply h_other; [eapply (h_call _ _ _ _ N m m2); [exact Hh| |exact He]|].
    + exists k, x, X. auto.
    + intros l _. symmetry. apply Hu. auto.
Qed.

(** footprint *)
Definition fft_cells (b N : nat) (x : ptr) (l : loc) : Prop := inR x N l \/ inR (b + 3, 0) N l \/ b <= fst l <= b + 2.
Definition fft_cellsb (b N : nat) (x : ptr) (l : loc) : bool := inRb x N l || (inRb (b + 3, 0) N l || bufb b (b + 2) l).
Lemma fft_cellsb_spec b N x l : fft_cellsb b N x l = true <-> fft_cells b N x l.
Proof. unfold fft_cellsb, fft_cells. rewrite !orb_true_iff, !inRb_spec, bufb_spec. tauto. Qed.


Definition is_par (a : act C) : Prop := match a with Par _ => True | New _ _ => False end.
Lemma par_news c S : Forall is_par c -> news_in (V := C) S c.
Proof. intros H b n Hin. rewrite Forall_forall in H. destruct (H _ Hin). Qed.
Ltac all_par := repeat match goal with
  | |- Forall _ (match ?e with _ => _ end) => destruct e
  | |- Forall _ (_ :: _) => constructor
  | |- Forall _ [] => constructor
  | |- is_par _ => exact I
  end.
Lemma fft0_run_par b N k x y : Forall is_par (fft0_run b N k x y).
Proof.
  unfold fft0_run, engine_run, ModelPow.pow_run, ModelPow.pow_serial, ModelPow.pow_parallel, ModelSix.six_run, ModelSix.six_fft, ModelSix.six_serial, ModelSix.six_parallel, ModelSix.eight_fft, ModelSix.eight_serial, ModelSix.eight_parallel, ModelSix.eight_large, ModelMixedClass.mixed_run, ModelMixedClass.mixed_serial, ModelMixedClass.mixed_parallel, ModelMixedClass.ploop. cbv zeta.
  all_par.
Qed.

Lemma restrict_in (S : loc -> bool) (m : mem) l : S l = true -> restrict S m l = m l.
Proof. intros H. unfold restrict. rewrite H. reflexivity. Qed.

Lemma fft_call_footprint b N k x m X : valid_length N -> fft_history b (Some N) m -> ~ fft_own b (fst x) -> holds m x N X ->
  accesses_only (fft_run b N k x) m (fft_cells b N x).
Proof.
  intros HN Hh Hx HX.
  assert (Hr : fft_ready b N (restrict (fft_cellsb b N x) m)).
  { pose proof (fft_history_ready b N m Hh HN) as [H1 H2]. split.
    - eapply fft0_ready_local; [|exact H1]. intros l Hl. apply restrict_in. apply fft_cellsb_spec. right. right. exact Hl.
    - intros l Hl. rewrite restrict_in; [apply H2; auto|]. apply fft_cellsb_spec. right. left. auto. }
  destruct (fft_run_ok b N k x (restrict (fft_cellsb b N x) m) X HN Hx Hr) as (m' & Hc & _).
  { intros i Hi. rewrite restrict_in; [apply HX; auto|]. apply fft_cellsb_spec. left. apply inR_i. auto. }
  pose proof (footprint (fft_cellsb b N x) _ m m' (CExec_Outcome _ _ _ _ Hc) (par_news _ _ (fft0_run_par _ _ _ _ _))) as H.
  intros kk T m1 Hre i l w Hi Ha. apply fft_cellsb_spec. eapply H; eauto.
Qed.

(** setup *)
Ltac in_cases := repeat match goal with
  | H : In _ (match ?e with _ => _ end) |- _ => destruct e
  | H : In _ (_ ++ _) |- _ => apply in_app_or in H; destruct H as [H|H]
  | H : In _ (_ :: _) |- _ => destruct H as [H|H]
  | H : In _ [] |- _ => destruct H
  | H : Par _ = New _ _ |- _ => discriminate H
  | H : New _ _ = New _ _ |- _ => injection H as <- <-
  end.
Lemma fft_setup_news b N c n : In (New c n) (fft_setup b N) -> fft_own b c.
Proof.
  unfold fft_setup, fft0_setup, obj_reset, engine_setup, ModelPow.pow_setup2, ModelPow.pow_setup_serial, ModelPow.pow_setup_parallel, ModelSix.six_setup2, ModelMixedClass.mixed_setup, ModelMixedClass.mixed_setup_serial, ModelMixedClass.mixed_setup_parallel, ModelMixedClass.sloop, ModelMixedClass.ploop,
    ModelSix.init_weight_sub, ModelSix.init_weight_nxn, ModelSix.init_weight_8xm, ModelSix.init_Wnxn, Twid.init_Wt, Twid.init_Wr1. cbv zeta. intros H.
  unfold fft_own. in_cases; try lia; unfold Twid.loop_w in *; in_cases.
Qed.

Lemma fft_setup_call b N o m : fft_history b o m ->
  exists m', Outcome (fft_setup b N) m m' /\ (forall l, ~ fft_own b (fst l) -> m' l = m l) /\ fft_history b (Some N) m' /\
    accesses_only (fft_setup b N) m (fun l => fft_own b (fst l)).
Proof.
  intros Hh. destruct (SetsUp_Outcome _ _ _ m (fft_setup_ok b N)) as (m' & Ho & Hr & Hf).
  exists m'. split; [|split; [|split]]; auto.
  - destruct Ho as [(m2 & He) Hu _ _ _ _]. eapply h_other; [eapply fft_h_setup; eauto|].
    intros l _. symmetry. apply Hu. auto.
  - set (S := bufb b (b + 3)).
    destruct (SetsUp_Outcome _ _ _ (restrict S m) (fft_setup_ok b N)) as (m2 & Ho2 & _).
    pose proof (footprint S _ m m2 Ho2) as H.
    intros kk T m1 Hre i l w Hi Ha. apply bufb_spec. eapply H; eauto.
    intros c n Hin j Hj. apply bufb_spec. apply (fft_setup_news b N c n Hin).
Qed.
End AnyArithmetic.

(** ** exact arithmetic *)
Section Exact.
Notation mem := (mem CC).
Local Open Scope R_scope.

Lemma fft_call b N k x (m : mem) X : valid_length N -> fft_history b (Some N) m -> ~ fft_own b (fst x) -> holds m x N X ->
  exists m', Outcome (fft_run b N k x) m m' /\ holds m' x N (transform k N X) /\
    (forall l, ~ inR x N l -> ~ inR ((b + 3)%nat, O) N l -> m' l = m l) /\ fft_history b (Some N) m'.
Proof.
  intros HN Hh Hx HX. destruct (fft_call_any b N k x m X HN Hh Hx HX) as (m' & H1 & H2 & H3 & H4).
  exists m'. split; [|split; [|split]]; auto. eapply holds_ext; [exact H2|]. intros i Hi. apply fft0_F_exact; auto.
Qed.

Lemma transform_ext k N X Y i : (forall j, (j < N)%nat -> X j = Y j) -> transform k N X i = transform k N Y i.
Proof. intros H. unfold transform. f_equal. apply DFT_ext. auto. Qed.

Lemma transform_lin k N a c X Y i :
  transform k N (fun j => cadd (cmul a (X j)) (cmul c (Y j))) i = cadd (cmul a (transform k N X i)) (cmul c (transform k N Y i)).
Proof. unfold transform. rewrite DFT_lin, !cscal_rc. ring. Qed.

(** [undoes k1 k2]: method k2 undoes method k1 *)
Definition undoes (k1 k2 : meth) : bool :=
  xorb (meth_inv k1) (meth_inv k2) &&
  match meth_scaling k1, meth_scaling k2 with
  | ByLength, Unscaled | Unscaled, ByLength | Unitary, Unitary => true
  | _, _ => false
  end.
Lemma transform_inverse k1 k2 N X i : undoes k1 k2 = true -> (0 < N)%nat -> (i < N)%nat ->
  transform k2 N (transform k1 N X) i = X i.
Proof.
  intros Hu HN Hi.
  assert (HN' : 0 < INR N) by (apply lt_0_INR; auto).
  assert (Hi2 : meth_inv k2 = negb (meth_inv k1)) by (unfold undoes in Hu; destruct (meth_inv k1), (meth_inv k2); auto; discriminate).
  assert (Hf : factor (meth_scaling k2) N * factor (meth_scaling k1) N * INR N = 1).
  { unfold undoes in Hu. apply andb_prop in Hu as [_ Hu]. destruct (meth_scaling k1), (meth_scaling k2); try discriminate; cbn; try (field; lra).
    pose proof (sqrt_lt_R0 _ HN'). rewrite <- (sqrt_sqrt (INR N)) at 3 by lra. field. lra. }
  unfold transform. rewrite Hi2.
  rewrite (DFT_ext _ _ _ (fun j => cmul (rc (factor (meth_scaling k1) N)) (DFT (meth_inv k1) N X j))) by (intros; apply cscal_rc).
  rewrite DFT_scal, DFT_inverse, cscal_rc by auto.
  assert (E : cmul (rc (factor (meth_scaling k2) N)) (cmul (rc (factor (meth_scaling k1) N)) (cmul (rc (INR N)) (X i))) =
    cmul (rc (factor (meth_scaling k2) N * factor (meth_scaling k1) N * INR N)) (X i)) by (csimp; ring).
  rewrite E, Hf. csimp; ring.
Qed.

Lemma transform_energy k N X : meth_scaling k = Unitary -> (0 < N)%nat ->
  rsum N (fun i => cnorm2 (transform k N X i)) = rsum N (fun i => cnorm2 (X i)).
Proof.
  intros Hk HN. assert (HN' : 0 < INR N) by (apply lt_0_INR; auto).
  unfold transform. rewrite Hk. cbn [factor].
  rewrite (rsum_ext N _ (fun i => / INR N * cnorm2 (DFT (meth_inv k) N X i))).
  - rewrite rsum_mul, Plancherel by auto. field. lra.
  - intros i _. unfold cnorm2. creduce. pose proof (sqrt_lt_R0 _ HN'). rewrite <- (sqrt_sqrt (INR N)) at 5 by lra. field. lra.
Qed.
End Exact.
