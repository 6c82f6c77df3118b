(** * C47 for RealDCT and BluesteinFFT objects: their work areas cannot be shared by threads either *)

From Coq Require Import List Arith ZArith Bool Lia.
From Verif Require Import Scalar Mem MemFacts Omp OmpFacts Lanes Object Engine ModelApi Stage
  History ApiFacts Footprint ComplexThms GObj ModelReal RealRun RealObj DctRun DctThms PropDct ModelBluestein BluesteinRun PropBluestein Concurrent WritesIn PropConcurrent PropShare.
Import ListNotations.

Section More.
Context {Op : Ops}.
Notation C := (@C Op).
Lemma csteps_trans (s1 s2 s3 : conf (V:=C)) m1 m2 m3 : csteps s1 m1 s2 m2 -> csteps s2 m2 s3 m3 -> csteps s1 m1 s3 m3.
Proof. intros H1 H2. induction H2 as [|c m c1 m1' c2 m2' _ IH Hst]; [exact H1|]. eapply cs_step; [apply IH; exact H1|exact Hst]. Qed.
(** a call does what its parts do *)
Lemma csteps_region r c m m1 : region_exec (V:=C) r m m1 -> csteps (Conf None r c) m (Conf None [] c) m1.
Proof.
  induction 1 as [|ph rest m chunks T' m' m'' Hs Hp Hf _ IH]; [constructor|]. eapply csteps_trans; [|exact IH].
  eapply cs_step; [|apply c_join; exact Hf]. apply (csteps_team _ rest c m _ m _ m' Hp). eapply cs_step; [constructor|]. apply c_fork. exact Hs.
Qed.
Lemma csteps_call c1 c2 m m1 : call_exec (V:=C) c1 m m1 -> csteps (start (c1 ++ c2)) m (start c2) m1.
Proof.
  induction 1 as [|b n rest m m' _ IH|r rest m m1 m' Hr _ IH]; cbn [app]; [constructor| |].
  - eapply csteps_trans; [|exact IH]. eapply cs_step; [constructor|]. apply c_new.
  - eapply csteps_trans; [|exact IH]. eapply csteps_trans; [|apply csteps_region; exact Hr]. eapply cs_step; [constructor|]. apply c_par.
Qed.
(** a call whose last loop begins by reading l *)
Lemma last_reads c n (body : nat -> prog C unit) N m m' l f : Outcome (c ++ omp_loop N n body) m m' -> 1 <= n -> body 0 = Load l f ->
  exists s m1, csteps (start (c ++ omp_loop N n body)) m s m1 /\ about_to s l false.
Proof.
  intros HO Hn Hb. destruct (oc_completes _ _ _ HO) as (m2 & He). apply call_exec_app in He as (m1 & He & _).
  assert (K : forall ph, fst ph = S (pred (fst ph)) -> (exists g, snd ph 0 = Load l g) ->
    exists s m1, csteps (start (c ++ [Par [ph]])) m s m1 /\ about_to s l false).
  { intros ph Hp (g & Hg). set (ch := [seq 0 (fst ph)]).
    assert (Hs : schedule ph ch). { unfold schedule, ch. cbn [concat]. rewrite app_nil_r. apply Permutation.Permutation_refl. }
    exists (Conf (Some (length ch, team ph ch)) [] []), m1. split.
    - eapply csteps_trans; [apply (csteps_call _ _ _ _ He)|]. eapply cs_step; [eapply cs_step; [constructor|apply c_par]|]. apply c_fork. exact Hs.
    - left. exists (length ch), (team ph ch), 0. split; [reflexivity|]. split; [cbn; lia|]. unfold team, ch. cbn [nth]. rewrite Hp. cbn [seq chunk_prog]. rewrite Hg. reflexivity. }
  unfold omp_loop. destruct (N <? base_omp).
  - apply K; [reflexivity|]. cbn [single snd]. destruct n as [|n]; [lia|]. clear - Hb.
    assert (E : forall q, exists g, for_ (S q) body = Load l g).
    { induction q as [|q (g & IH)].
      - cbn [for_]. cbn [bind]. rewrite Hb. eexists. reflexivity.
      - change (for_ (S (S q)) body) with (bind (for_ (S q) body) (fun _ => body (S q))). rewrite IH. eexists. reflexivity. }
    apply E.
  - apply K; cbn [fst snd]; [lia|eauto].
Qed.
End More.

(** BluesteinFFT: every length but 1 (where the methods do nothing) *)
Theorem C47_bluestein_object_not_shared : forall (Op : Ops) b N (k : nat -> meth) (x : nat -> ptr) (m : mem C) (X : nat -> nat -> C),
  bl_length N -> 2 <= N ->
  bl_history b (Some N) m -> (forall t, t < 2 -> ~ bl_own b (fst (x t)) /\ holds m (x t) N (X t)) ->
  exists Q m1, gsteps 2 (fun t => start (bl_run b N (k t) (x t)), m) (Q, m1) /\ race_between (Q 0) (Q 1).
Proof.
  intros Op b N k x m X HN H2 Hh HX.
  assert (G : forall t, t < 2 -> exists s, csteps (start (bl_run b N (k t) (x t))) m s m /\ about_to s (b + 4, 0) true).
  { intros t Ht. destruct (HX t Ht) as [Hx HXt]. destruct (C07_bluestein_safety Op b N (k t) (x t) m (X t) HN Hh Hx HXt) as [(m' & HO & _) _].
    unfold bl_run in *. assert (HB : (Z.of_nat (2 * N - 1) <= 2 ^ 30)%Z) by (destruct HN; lia).
    destruct (pad_loop_spec 32 0 (2 * N - 1) HB eq_refl (or_intror eq_refl)) as (q & E & _). change (2 ^ 0) with 1 in E. rewrite E in *. unfold bl_run_L in *.
    destruct (Nat.ltb_spec N 2); [lia|]. cbv zeta in *. cbn [app] in *.
    destruct (call_leads (Op:=Op) _ _ _ _ _ (b + 4, 0) HO) as (T & Hs & Ha).
    - cbn. lia.
    - cbn [single snd]. unfold bl_first, block. cbn [loads bind]. apply l_load. intros v. cbn. apply l_store.
    - eauto. }
  destruct (G 0 ltac:(lia)) as (s0 & S0 & A0). destruct (G 1 ltac:(lia)) as (s1 & S1 & A1).
  set (Q := fun t => start (bl_run b N (k t) (x t))).
  destruct (lift 2 Q 0 _ m ltac:(lia) _ m S0) as (Q1 & G1 & F1 & O1); [reflexivity|].
  destruct (lift 2 Q1 1 _ m ltac:(lia) _ m S1) as (Q2 & G2 & F2 & O2); [apply O1; lia|].
  exists Q2, m. split; [eapply gsteps_trans; eauto|]. exists (b + 4, 0), true, true. rewrite F2, (O2 0 ltac:(lia)), F1. auto.
Qed.
Print Assumptions C47_bluestein_object_not_shared.

(** RealDCT: every length, any two methods (a forward method first writes one work area, an inverse method the other, but reads
    the first at the end) *)
Theorem C47_dct_object_not_shared : forall (Op : Ops) b N (k : nat -> dmeth) (x : nat -> ptr) (m : mem C) (X : nat -> nat -> C),
  dct_length N ->
  dct_history b (Some N) m -> (forall t, t < 2 -> ~ dct_own b (fst (x t)) /\ holds m (x t) N (X t)) ->
  exists Q m1, gsteps 2 (fun t => start (dct_run b N (k t) (x t)), m) (Q, m1) /\ race_between (Q 0) (Q 1).
Proof.
  intros Op b N k x m X HN Hh HX.
  assert (EN : N = 2 * (N / 2)) by apply HN. assert (H2 : 2 <= N / 2) by apply HN.
  (* the first store *)
  assert (G : forall t, t < 2 -> exists s, csteps (start (dct_run b N (k t) (x t))) m s m /\ about_to s ((if dmeth_inv (k t) then b + 6 else b + 5), 0) true).
  { intros t Ht. destruct (HX t Ht) as [Hx HXt]. destruct (C07_dct_safety Op b N (k t) (x t) m (X t) HN Hh Hx HXt) as [(m' & HO & _) _].
    assert (GF : forall kd, Outcome (dct0_fwd b N kd (x t) (b + 5, 0) (b + 6, 0)) m m' -> exists s, csteps (start (dct0_fwd b N kd (x t) (b + 5, 0) (b + 6, 0))) m s m /\ about_to s (b + 5, 0) true).
    { clear HO. intros kd HO. unfold dct0_fwd in *. destruct (Nat.ltb_spec N 2); [lia|]. unfold omp_loop in HO at 1. unfold omp_loop at 1.
      assert (LB : leads (df_perm N (x t) (b + 5, 0) 0) (b + 5, 0)).
      { unfold df_perm, block. cbn [loads bind]. apply l_load. intros v. apply l_load. intros w. cbn. apply l_store. }
      destruct (N <? base_omp); cbn [app] in *.
      - destruct (call_leads (Op:=Op) _ _ _ _ _ (b + 5, 0) HO) as (T & Hs & Ha); [cbn; lia| |eauto]. cbn [single snd]. apply leads_for; [lia|exact LB].
      - destruct (call_leads (Op:=Op) _ _ _ _ _ (b + 5, 0) HO) as (T & Hs & Ha); [cbn [fst]; lia| |eauto]. cbn [snd]. exact LB. }
    assert (GI : forall kd, Outcome (dct0_inv b N kd (x t) (b + 5, 0) (b + 6, 0)) m m' -> exists s, csteps (start (dct0_inv b N kd (x t) (b + 5, 0) (b + 6, 0))) m s m /\ about_to s (b + 6, 0) true).
    { clear HO. intros kd HO. unfold dct0_inv in *. destruct (Nat.ltb_spec N 2); [lia|]. cbn [app] in *.
      destruct (call_leads (Op:=Op) _ _ _ _ _ (b + 6, 0) HO) as (T & Hs & Ha); [cbn; lia| |eauto]. cbn [single snd]. unfold block. cbn [loads bind]. apply l_load. intros v. cbn. apply l_store. }
    unfold dct_run, dct0_run in *. destruct (k t); cbn [dmeth_inv]; first [apply GF; exact HO|apply GI; exact HO]. }
  (* the last loop of an inverse method *)
  assert (L : forall t, t < 2 -> dmeth_inv (k t) = true -> exists s m1, csteps (start (dct_run b N (k t) (x t))) m s m1 /\ about_to s (b + 5, 0) false).
  { intros t Ht Hi. destruct (HX t Ht) as [Hx HXt]. destruct (C07_dct_safety Op b N (k t) (x t) m (X t) HN Hh Hx HXt) as [(m' & HO & _) _].
    assert (GI : forall kd, Outcome (dct0_inv b N kd (x t) (b + 5, 0) (b + 6, 0)) m m' -> exists s m1, csteps (start (dct0_inv b N kd (x t) (b + 5, 0) (b + 6, 0))) m s m1 /\ about_to s (b + 5, 0) false).
    { clear HO. intros kd HO. unfold dct0_inv in *. destruct (Nat.ltb_spec N 2); [lia|]. rewrite !app_assoc in *.
      eapply last_reads; [exact HO|lia|]. unfold di_perm, block. cbn [loads bind]. reflexivity. }
    unfold dct_run, dct0_run in *. destruct (k t); try discriminate Hi; apply GI; exact HO. }
  set (Q := fun t => start (dct_run b N (k t) (x t))).
  (* t is stopped before a store to l, then u runs until it is about to access l *)
  assert (R : forall t u st su mu l w, t < 2 -> u < 2 -> t <> u -> csteps (Q t) m st m -> about_to st l true -> csteps (Q u) m su mu -> about_to su l w ->
    exists Q' m1, gsteps 2 (Q, m) (Q', m1) /\ race_between (Q' t) (Q' u)).
  { intros t u st su mu l w Ht Hu Hne S0 A0 S1 A1.
    destruct (lift 2 Q t _ m Ht _ m S0) as (Q1 & G1 & F1 & O1); [reflexivity|].
    destruct (lift 2 Q1 u _ mu Hu _ m S1) as (Q2 & G2 & F2 & O2); [apply O1; auto|].
    exists Q2, mu. split; [eapply gsteps_trans; eauto|]. exists l, true, w. rewrite F2, (O2 t) by auto. rewrite F1. auto. }
  destruct (G 0 ltac:(lia)) as (s0 & S0 & A0). destruct (G 1 ltac:(lia)) as (s1 & S1 & A1).
  destruct (dmeth_inv (k 0)) eqn:E0, (dmeth_inv (k 1)) eqn:E1.
  - apply (R 0 1 s0 s1 m (b + 6, 0) true); auto.
  - destruct (L 0 ltac:(lia) E0) as (s & mu & S & A). destruct (R 1 0 s1 s mu (b + 5, 0) false) as (Q' & m1 & H1 & (l & v & w & B1 & B2 & B3)); auto.
    exists Q', m1. split; [exact H1|]. exists l, w, v. rewrite orb_comm. auto.
  - destruct (L 1 ltac:(lia) E1) as (s & mu & S & A). apply (R 0 1 s0 s mu (b + 5, 0) false); auto.
  - apply (R 0 1 s0 s1 m (b + 5, 0) true); auto.
Qed.
Print Assumptions C47_dct_object_not_shared.

(** the hypotheses are met: an object after setup(N) and two separate arrays with any contents *)
Theorem C47_dct_hypotheses_met : forall (Op : Ops) b N (X : nat -> nat -> C), dct_length N -> let x := fun t => (b + 7 + t, 0) in
  exists m : mem C, dct_history b (Some N) m /\ (forall t, t < 2 -> ~ dct_own b (fst (x t)) /\ holds m (x t) N (X t)) /\ disjR (x 0) N (x 1) N.
Proof.
  intros Op b N X HN x. destruct (dct_inhabited b N (x 0) (X 0) HN) as (m & Hm & _); [unfold dct_own, x; cbn; lia|].
  exists (fun l => if fst l <=? b + 6 then m l else Val (X (fst l - (b + 7)) (snd l))). split; [|split].
  - eapply h_other; [exact Hm|]. intros l Hl. unfold dct_own in Hl. destruct (Nat.leb_spec (fst l) (b + 6)); [reflexivity|lia].
  - intros t Ht. split; [unfold dct_own, x; cbn [fst]; lia|]. intros i Hi. unfold x. cbn [padd fst snd]. destruct (Nat.leb_spec (b + 7 + t) (b + 6)); [lia|]. f_equal. f_equal; lia.
  - intros i j _ _ E. apply (f_equal fst) in E. cbn [padd fst x] in E. lia.
Qed.
Theorem C47_bluestein_hypotheses_met : forall (Op : Ops) b N (X : nat -> nat -> C), bl_length N -> let x := fun t => (b + 7 + t, 0) in
  exists m : mem C, bl_history b (Some N) m /\ (forall t, t < 2 -> ~ bl_own b (fst (x t)) /\ holds m (x t) N (X t)) /\ disjR (x 0) N (x 1) N.
Proof.
  intros Op b N X HN x. destruct (bluestein_hypotheses_met Op b N (x 0) (X 0) HN) as (m & Hm & _); [unfold bl_own, x; cbn; lia|].
  exists (fun l => if fst l <=? b + 6 then m l else Val (X (fst l - (b + 7)) (snd l))). split; [|split].
  - eapply h_other; [exact Hm|]. intros l Hl. unfold bl_own in Hl. destruct (Nat.leb_spec (fst l) (b + 6)); [reflexivity|lia].
  - intros t Ht. split; [unfold bl_own, x; cbn [fst]; lia|]. intros i Hi. unfold x. cbn [padd fst snd]. destruct (Nat.leb_spec (b + 7 + t) (b + 6)); [lia|]. f_equal. f_equal; lia.
  - intros i j _ _ E. apply (f_equal fst) in E. cbn [padd fst x] in E. lia.
Qed.
