(** * The power-of-two objects compute what their tables and passes compute (any arithmetic) *)

From Coq Require Import List Arith ZArith Bool Lia.
From Verif Require Import Scalar Mem MemFacts Omp OmpFacts Lanes Stage CoreStage Twid Object ObjectFacts Engine MixedDrive ModelPow PowDrive PowKern PowRun.
Import ListNotations.

(** ** loops filling a table *)
Section TabLoop.
Context {V : Type}.
Notation mem := (mem V).

Lemma last_occ (l : loc) ws : In l ws -> exists j, nth_error ws j = Some l /\ forall j', j < j' -> nth_error ws j' <> Some l.
Proof.
  induction ws as [|w ws IH]; [intros []|]. intros H.
  destruct (in_dec loc_eq_dec l ws) as [Hin|Hnin].
  - destruct (IH Hin) as (j & H1 & H2). exists (S j). split; auto. intros [|j'] Hj'; [lia|]. apply H2. lia.
  - destruct H as [->|H]; [|contradiction]. exists 0. split; auto. intros [|j'] Hj'; [lia|]. cbn.
    intros E. apply Hnin. eapply nth_error_In; eauto.
Qed.

Variables (n : nat) (es : nat -> list nat) (vs : nat -> list V) (T : nat -> V) (W : ptr) (m : mem).
Hypothesis Hvs : forall p, p < n -> vs p = map T (es p).
Hypothesis Hdj : forall p p' e, p < n -> p' < n -> p <> p' -> In e (es p) -> ~ In e (es p').
Hypothesis Hal : forall p e, p < n -> In e (es p) -> m (W +! e) <> Free.
Definition tbody (p : nat) : prog V unit := stores (map (fun e => W +! e) (es p)) (vs p).

Lemma tab_loop (S : loc -> Prop) : (forall p e, p < n -> In e (es p) -> S (W +! e)) ->
  (exists m', Exec [(n, tbody)] S m m' /\ forall p e, p < n -> In e (es p) -> m' (W +! e) = Val (T e)) /\
  (exists m', Exec [(1, fun _ => for_ n tbody)] S m m' /\ forall p e, p < n -> In e (es p) -> m' (W +! e) = Val (T e)).
Proof.
  intros HS.
  assert (HS' : forall l, (exists i, i < n /\ In l (map (fun e => W +! e) (es i))) -> S l).
  { intros l (i & Hi & Hin). apply in_map_iff in Hin as (e & <- & He). eauto. }
  destruct (bloop_post n (fun _ => []) (fun p => map (fun e => W +! e) (es p)) (fun p _ => vs p) m (fun _ => []))
    with (P := fun m' => forall p e, p < n -> In e (es p) -> m' (W +! e) = Val (T e)) as [(m1 & E1 & P1) (m2 & E2 & P2)].
  - reflexivity.
  - intros i Hi. rewrite Hvs, !map_length by auto. reflexivity.
  - intros i l Hi Hin. apply in_map_iff in Hin as (e & <- & He). eauto.
  - intros i j l Hi Hj Hne Hin. split; [|intros []]. intros Hin'.
    apply in_map_iff in Hin as (e & <- & He). apply in_map_iff in Hin' as (e' & E & He'). apply padd_inj in E. rewrite E in He'. exact (Hdj i j e Hi Hj Hne He He').
  - intros m' _ H p e Hp He.
    destruct (last_occ (W +! e) (map (fun e => W +! e) (es p))) as (j & Hj & Hl).
    { apply in_map_iff. eauto. }
    destruct (nth_error (es p) j) as [e'|] eqn:Ee.
    + assert (Hj2 : Some (W +! e') = Some (W +! e)) by (exact (eq_trans (eq_sym (map_nth_error (fun e => W +! e) _ _ Ee)) Hj)).
      injection Hj2 as Hj2. assert (e' = e) as -> by lia.
      apply (H p j); auto. rewrite Hvs by auto. apply map_nth_error. auto.
    + apply nth_error_None in Ee. assert (nth_error (map (fun e => W +! e) (es p)) j = None) as Hn by (apply nth_error_None; rewrite map_length; auto).
      pose proof (eq_trans (eq_sym Hn) Hj). discriminate.
  - split; [exists m1|exists m2]; (split; [|assumption]); (eapply Exec_mono; [exact HS'|assumption]).
Qed.
End TabLoop.

Section PowClass.
Context {Op : Ops}.
Notation mem := (mem C).

(** ** the tables *)
Definition tw_val (N k p : nat) : C := expj (smul (smul (theta_of N) (sofZ (Z.of_nat k))) (sofZ (Z.of_nat p))).
Definition Wt_T (r N i : nat) : C :=
  if i <? N then tw_val N (S (i / (N / r))) (i mod (N / r)) else tw_val N ((i - N) mod r) ((i - N) / r).
Definition Wr1_T (N p : nat) : C := expj (smul (theta_of N) (sofZ (Z.of_nat p))).

Definition wt_es (r N p : nat) : list nat := flat_map (fun j => [N + r * p + (1 + j); p + (1 + j - 1) * (N / r)]) (seq 0 (r - 1)).

Lemma wt_es_in r N p e : In e (wt_es r N p) <-> exists k, 1 <= k < r /\ (e = N + r * p + k \/ e = p + (k - 1) * (N / r)).
Proof.
  unfold wt_es. rewrite in_flat_map. split.
  - intros (j & Hj & He). apply in_seq in Hj. exists (1 + j). split; [lia|]. destruct He as [<-|[<-|[]]]; auto.
  - intros (k & Hk & He). exists (k - 1). split; [apply in_seq; lia|]. replace (1 + (k - 1)) with k by lia.
    destruct He as [->| ->]; cbn; auto.
Qed.

Section Wt.
Variables (r N m : nat).
Hypothesis HN : N = r * m.
Hypothesis Hr : 0 < r.
Hypothesis Hm : 0 < m.
Lemma Wt_quot : N / r = m.
Proof. rewrite HN. apply quot1. auto. Qed.
Lemma Wt_lo p k : p < m -> 1 <= k < r -> Wt_T r N (p + (k - 1) * m) = tw_val N k p.
Proof.
  intros Hp Hk. unfold Wt_T. rewrite Wt_quot.
  assert (p + (k - 1) * m < N) by (rewrite HN; nia). apply Nat.ltb_lt in H. rewrite H.
  rewrite (Nat.mul_comm (k - 1) m), div_lin, mod_lin by auto. f_equal. lia.
Qed.
Lemma Wt_hi p k : p < m -> 1 <= k < r -> Wt_T r N (N + r * p + k) = tw_val N k p.
Proof.
  intros Hp Hk. unfold Wt_T. assert (N <= N + r * p + k) by lia. apply Nat.ltb_ge in H. rewrite H.
  replace (N + r * p + k - N) with (k + r * p) by lia. rewrite div_lin, mod_lin by lia. reflexivity.
Qed.
Lemma wt_disj p p' e : p < m -> p' < m -> p <> p' -> In e (wt_es r N p) -> ~ In e (wt_es r N p').
Proof.
  intros Hp Hp' Hne H H'. apply wt_es_in in H as (k & Hk & E). apply wt_es_in in H' as (k' & Hk' & E').
  rewrite Wt_quot in *. rewrite HN in *.
  destruct E as [E|E], E' as [E'|E'].
  - apply Hne. assert (r * p + k = r * p' + k') by lia.
    apply (Nat.mul_cancel_l _ _ r); [lia|]. destruct (Nat.lt_trichotomy p p') as [|[|]]; nia.
  - assert (p' + (k' - 1) * m < r * m) by nia. nia.
  - assert (p + (k - 1) * m < r * m) by nia. nia.
  - apply Hne. assert (p + m * (k - 1) = p' + m * (k' - 1)) by lia.
    pose proof (mod_lin m p (k - 1) Hp) as M1. pose proof (mod_lin m p' (k' - 1) Hp') as M2. rewrite H in M1. congruence.
Qed.
Lemma wt_bound p e : p < m -> In e (wt_es r N p) -> e < 2 * N.
Proof.
  intros Hp H. apply wt_es_in in H as (k & Hk & E). rewrite Wt_quot in E. rewrite HN in *. destruct E as [->| ->]; nia.
Qed.
End Wt.

Definition wt_vs (r N p : nat) : list C := flat_map (fun j => [tw_val N (1 + j) p; tw_val N (1 + j) p]) (seq 0 (r - 1)).
Lemma wt_vs_T r N m p : N = r * m -> 0 < r -> 0 < m -> p < m -> wt_vs r N p = map (Wt_T r N) (wt_es r N p).
Proof.
  intros HN Hr0 Hm Hp. assert (Eq : N / r = m) by (rewrite HN; apply quot1; auto).
  unfold wt_vs, wt_es. rewrite !flat_map_concat_map, concat_map, map_map. f_equal. apply map_ext_in. intros j Hj. apply in_seq in Hj.
  cbn [map]. rewrite Eq. rewrite (Wt_hi r N m) by (auto; lia). rewrite (Wt_lo r N m HN Hr0 Hm p (1 + j)) by lia. reflexivity.
Qed.

Definition radixp r := r = 4 \/ r = 8 \/ r = 16.
Lemma wt_body r N W p : radixp r ->
  for_ (r - 1) (fun j =>
    let k := 1 + j in
    let v := expj (smul (smul (theta_of N) (sofZ (Z.of_nat k))) (sofZ (Z.of_nat p))) in
    store (W +! (N + r * p + k)) v ;;; store (W +! (p + (k - 1) * (N / r))) v) = tbody (wt_es r N) (wt_vs r N) W p.
Proof. intros [->|[->| ->]]; reflexivity. Qed.

Lemma pow2_div r N : pow2 r -> pow2 N -> r <= N -> exists m, N = r * m /\ 0 < m /\ N / r = m.
Proof.
  intros [j ->] [k ->] H. apply pow2_inj_le in H. exists (2 ^ (k - j)). pose proof (pow2_pos j). pose proof (pow2_pos (k - j)).
  assert (E : 2 ^ k = 2 ^ j * 2 ^ (k - j)) by (rewrite <- Nat.pow_add_r; f_equal; lia).
  repeat split; auto. rewrite E. apply quot1. auto.
Qed.

Lemma init_Wt_Exec r N m b M : radixp r -> N = r * m -> 0 < m -> 2 * N <= M -> forall mem0 : mem, allocd mem0 (inR (b, 0) M) ->
  exists rg m', init_Wt r N (b, 0) = [Par rg] /\ Exec rg (inR (b, 0) M) mem0 m' /\ tab m' (b, 0) (Wt_P r N) (Wt_T r N).
Proof.
  intros Hr HN Hm HM mem0 Ha.
  assert (Hr0 : 0 < r) by (destruct Hr as [->|[->| ->]]; lia).
  assert (Eq : N / r = m) by (rewrite HN; apply quot1; auto).
  assert (Hlt : N <? r = false) by (apply Nat.ltb_ge; nia).
  unfold init_Wt. rewrite Hlt. unfold loop_w, single.
  destruct (tab_loop (N / r) (wt_es r N) (wt_vs r N) (Wt_T r N) (b, 0) mem0) with (S := inR (b, 0) M) as [(m1 & E1 & P1) (m2 & E2 & P2)].
  - intros p Hp. rewrite Eq in Hp. eapply wt_vs_T; eauto.
  - intros p p' e Hp Hp'. rewrite Eq in Hp, Hp'. apply (wt_disj r N m); auto.
  - intros p e Hp He. rewrite Eq in Hp. apply Ha. apply inR_i. pose proof (wt_bound r N m HN Hr0 Hm p e Hp He). lia.
  - intros p e Hp He. rewrite Eq in Hp. apply inR_i. pose proof (wt_bound r N m HN Hr0 Hm p e Hp He). lia.
  - assert (Ht : forall m', (forall p e, p < N / r -> In e (wt_es r N p) -> m' ((b, 0) +! e) = Val (Wt_T r N e)) -> tab m' (b, 0) (Wt_P r N) (Wt_T r N)).
    { intros m' H e He. unfold Wt_P in He. rewrite Eq in He. destruct He as [He|(p & k & Hp & Hk & ->)].
      - destruct (eucl m e Hm) as (p & k & Hp & Ek). apply (H p); [lia|]. apply wt_es_in. exists (S k). rewrite Eq. split; [nia|]. right. nia.
      - apply (H p); [lia|]. apply wt_es_in. eauto. }
    cbv zeta. destruct (N <? omp_w).
    + exists [(1, fun _ => for_ (N / r) (tbody (wt_es r N) (wt_vs r N) (b, 0)))], m2. split; [|split; auto].
      destruct Hr as [->|[->| ->]]; reflexivity.
    + exists [(N / r, tbody (wt_es r N) (wt_vs r N) (b, 0))], m1. split; [|split; auto].
      destruct Hr as [->|[->| ->]]; reflexivity.
Qed.

(** ** objects *)
Definition pow_par (a : alg) (N : nat) : bool := negb (N <? omp_min a).
Definition pow_T (a : alg) (N : nat) : nat -> C :=
  if N <=? radix a then fun _ => c0 else if pow_par a N then Wr1_T N else Wt_T (radix a) N.
Definition pow_ready (a : alg) (b n : nat) (m : mem) : Prop :=
  let N := 2 ^ n in
  if N <=? radix a then True else tab m (b, 0) (NWp (pow_par a N) a N) (pow_T a N).
Definition pow_F (a : alg) (n : nat) (k : meth) : (nat -> C) -> nat -> C :=
  let N := 2 ^ n in pow_ff (pow_par a N) a (meth_inv k) (meth_mode k) N N 1 (pow_T a N).

Lemma tab_own_local b (P : nat -> Prop) T (own : nat -> Prop) : own b -> Local own (fun m : mem => tab m (b, 0) P T).
Proof.
  intros Ho m m' Hf H. eapply tab_frame; [exact H|]. intros l (i & Hi & ->). apply Hf. auto.
Qed.
Lemma pow_ready_local a b n (own : nat -> Prop) : own b -> Local own (pow_ready a b n).
Proof.
  intros H. unfold pow_ready. cbv zeta. destruct (2 ^ n <=? radix a); [intros m m' _ _; exact I|]. apply tab_own_local; auto.
Qed.
Lemma radix_p a : radixp (radix a).
Proof. destruct a; cbn; unfold radixp; auto. Qed.
Lemma omp_min_big a : radix a < omp_min a.
Proof. apply Nat.ltb_lt. destruct a; vm_compute; reflexivity. Qed.

(** table entries of the single-threaded code (Wt) and of the multi-threaded code (Wr1) *)
Lemma pow_setup_serial_ok a b N (own : nat -> Prop) : own b -> pow2 N -> radix a < N ->
  SetsUp own (pow_setup_serial a b N) (fun m : mem => tab m (b, 0) (NWp false a N) (Wt_T (radix a) N)).
Proof.
  intros Hb Hp Hgt. assert (Hr0 : 0 < radix a) by (destruct a; cbn; lia).
  destruct (pow2_div (radix a) N (radix_pow2 a) Hp ltac:(lia)) as (q & HN & Hq & Eq).
  intros m. destruct (init_Wt_Exec (radix a) N q b (2 * N) (radix_p a) HN Hq (le_n _) (malloc m b (2 * N)) (malloc_allocd m b _))
    as (rg & m' & E & (Ho & Hr & Hc & _) & Ht).
  exists m'. unfold pow_setup_serial. rewrite E. split; [|split; [|split]]; auto.
  + cbn [acts_ok]. auto.
  + cbn [call_seq]. rewrite Hr. reflexivity.
  + intros l Hl. rewrite Hc.
    * apply malloc_out. intros E'. apply Hl. rewrite E'. auto.
    * intros Hi. apply inR_fst in Hi. apply Hl. rewrite Hi. auto.
Qed.
Lemma pow_setup_parallel_ok a b N (own : nat -> Prop) : own b -> radix a < N ->
  SetsUp own (pow_setup_parallel a b N) (fun m : mem => tab m (b, 0) (NWp true a N) (Wr1_T N)).
Proof.
  intros Hb Hgt. unfold pow_setup_parallel, init_Wr1. assert (El : N <? radix a = false) by (apply Nat.ltb_ge; lia). rewrite El.
  unfold loop_w, single. destruct (N <? omp_w); apply table_setup; auto.
Qed.
Lemma pow_setup_ok a b n (own : nat -> Prop) : own b -> SetsUp own (pow_setup2 a b n) (pow_ready a b n).
Proof.
  intros Hb. unfold pow_setup2, pow_ready, pow_T, pow_par. cbv zeta.
  destruct (Nat.leb_spec (2 ^ n) (radix a)) as [Hle|Hgt].
  { intros m. exists m. cbn. auto. }
  assert (Hp : pow2 (2 ^ n)) by (eexists; reflexivity).
  destruct (2 ^ n <? omp_min a); cbn [negb]; [apply pow_setup_serial_ok | apply pow_setup_parallel_ok]; auto.
Qed.

Section RunOk.
Variables (a : alg) (b n : nat) (k : meth) (own : nat -> Prop).
Hypothesis Hb : own b.
Hypothesis Hn : 1 <= n <= 24.
Let N := 2 ^ n.

Lemma pow_serial_ok : Transforms own
  (fun m => if N <=? radix a then True else tab m (b, 0) (NWp false a N) (Wt_T (radix a) N)) N (pow_serial a b n k)
  (pow_ff false a (meth_inv k) (meth_mode k) N N 1 (if N <=? radix a then fun _ => c0 else Wt_T (radix a) N)).
Proof.
  intros x y m X Hx Hy Hxy Hrd Hh Ha.
  assert (Eok : (1 <=? n) && (n <=? 24) = true) by (apply andb_true_intro; split; apply Nat.leb_le; lia).
  unfold pow_serial. cbv zeta. rewrite Eok. fold N.
  assert (Hp : pow2 N) by (eexists; reflexivity).
  assert (H2 : 2 <= N). { unfold N. destruct n; [lia|]. cbn [Nat.pow]. pose proof (pow2_pos n0). lia. }
  assert (Hs : four_or_1 1) by (left; auto).
  clearbody N.
  assert (Hal : allocd m (xy x y N)).
  { intros l [Hl|Hl]; [|auto]. eapply holds_allocd; eauto. }
  assert (HdT : forall P z, ~ own (fst z) -> disjT (b, 0) P z N).
  { intros P z Hz i j _ _ E. apply Hz. unfold padd in E. injection E as E _. cbn in E. rewrite <- E. auto. }
  assert (Ein : inp a false x y = x) by (unfold inp; destruct (is_dit a); reflexivity).
  assert (Eout : outp a false x y = x) by (unfold outp; destruct (is_dit a); reflexivity).
  assert (HC : forall P : nat -> Prop, (radix a < N -> forall i, NWp false a N i -> P i) ->
    Computes (fft_s a (meth_inv k) (meth_mode k) N 1 false x y (b, 0)) x N (b, 0) P (xy x y N) x N (pow_ff false a (meth_inv k) (meth_mode k) N N 1)).
  { intros P HP. pose proof (fft_s_C a (meth_inv k) (meth_mode k) N 1 false x y (b, 0) H2 Hp Hs P) as HC.
    rewrite Nat.mul_1_r, Ein, Eout in HC. apply HC; auto. split; [auto|]. split; apply HdT; auto. }
  destruct (Nat.leb_spec N (radix a)) as [Hle|Hgt].
  + destruct (RComputes_Exec _ _ _ _ _ _ _ _ _ (Computes_single _ _ _ _ _ _ _ _ _ (HC (fun _ => False) ltac:(lia))) m (fun _ => c0) X Hh) as (m' & E & H'); auto.
    { intros i []. }
    exists m'. split; [apply CExec_par; exact E|exact H'].
  + destruct (RComputes_Exec _ _ _ _ _ _ _ _ _ (Computes_single _ _ _ _ _ _ _ _ _ (HC (NWp false a N) ltac:(auto))) m (Wt_T (radix a) N) X Hh Hrd) as (m' & E & H'); auto.
    exists m'. split; [apply CExec_par; exact E|exact H'].
Qed.

Lemma pow_parallel_ok : Transforms own (fun m => tab m (b, 0) (NWp true a N) (Wr1_T N)) N (pow_parallel a b n k)
  (pow_ff true a (meth_inv k) (meth_mode k) N N 1 (Wr1_T N)).
Proof.
  intros x y m X Hx Hy Hxy Hrd Hh Ha.
  assert (Eok : (1 <=? n) && (n <=? 24) = true) by (apply andb_true_intro; split; apply Nat.leb_le; lia).
  unfold pow_parallel. cbv zeta. rewrite Eok. fold N.
  assert (Hp : pow2 N) by (eexists; reflexivity).
  assert (H2 : 2 <= N). { unfold N. destruct n; [lia|]. cbn [Nat.pow]. pose proof (pow2_pos n0). lia. }
  assert (Hs : four_or_1 1) by (left; auto).
  clearbody N.
  assert (Hal : allocd m (xy x y N)).
  { intros l [Hl|Hl]; [|auto]. eapply holds_allocd; eauto. }
  assert (HdT : forall P z, ~ own (fst z) -> disjT (b, 0) P z N).
  { intros P z Hz i j _ _ E. apply Hz. unfold padd in E. injection E as E _. cbn in E. rewrite <- E. auto. }
  assert (Ein : inp a false x y = x) by (unfold inp; destruct (is_dit a); reflexivity).
  assert (Eout : outp a false x y = x) by (unfold outp; destruct (is_dit a); reflexivity).
  pose proof (fft_o_R a (meth_inv k) (meth_mode k) N 1 false x y (b, 0) H2 Hp Hs) as HC.
  rewrite Nat.mul_1_r, Ein, Eout in HC.
  destruct (RComputes_Exec _ _ _ _ _ _ _ _ _ (HC ltac:(split; [auto|]; split; apply HdT; auto)) m (Wr1_T N) X Hh Hrd Hal) as (m' & E & H').
  exists m'. split; [apply CExec_par; exact E|exact H'].
Qed.
End RunOk.

Lemma pow_run_ok a b n k (own : nat -> Prop) : own b -> 1 <= n <= 24 ->
  Transforms own (pow_ready a b n) (2 ^ n) (pow_run a b n k) (pow_F a n k).
Proof.
  intros Hb Hn x y m X Hx Hy Hxy Hrd Hh Ha.
  pose proof (pow_serial_ok a b n k own Hb Hn x y m X Hx Hy Hxy) as HS.
  pose proof (pow_parallel_ok a b n k own Hb Hn x y m X Hx Hy Hxy) as HP.
  unfold pow_run, pow_F, pow_ready, pow_T, pow_par in *. cbv zeta in *.
  destruct (2 ^ n <? omp_min a) eqn:Em; cbn [negb] in *.
  - apply HS; auto. destruct (2 ^ n <=? radix a); auto.
  - assert (Hgt : 2 ^ n <=? radix a = false) by (apply Nat.leb_gt; pose proof (omp_min_big a); apply Nat.ltb_ge in Em; lia).
    rewrite Hgt in *. auto.
Qed.

End PowClass.
