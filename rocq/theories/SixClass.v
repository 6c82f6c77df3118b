(** * The six-step / eight-step object: tables, setup, methods (any arithmetic) *)

From Coq Require Import List Arith ZArith Bool Lia.
From Verif Require Import Scalar Mem MemFacts Omp OmpFacts Lanes Stage CoreStage Twid Object ObjectFacts Engine Steps MixedDrive ModelPow PowDrive PowKern PowRun PowClassFacts ModelSix SixIndex SixRun SixPart SixEight.
Import ListNotations.

Section SetsUp.
Context {V : Type}.
Notation mem := (mem V).
Lemma SetsUp_own (own own' : nat -> Prop) c (r : mem -> Prop) : (forall b, own b -> own' b) -> SetsUp own c r -> SetsUp own' c r.
Proof. intros H HS m. destruct (HS m) as (m' & H1 & H2 & H3 & H4). exists m'. repeat split; auto. Qed.
Lemma SetsUp_weak (own : nat -> Prop) c (r r' : mem -> Prop) : (forall m, r m -> r' m) -> SetsUp own c r -> SetsUp own c r'.
Proof. intros H HS m. destruct (HS m) as (m' & H1 & H2 & H3 & H4). exists m'. repeat split; auto. Qed.
(** two setups on different buffers *)
Lemma SetsUp_two (own1 own2 own : nat -> Prop) c1 c2 (r1 r2 : mem -> Prop) :
  SetsUp own1 c1 r1 -> SetsUp own2 c2 r2 -> Local own1 r1 -> (forall b, own1 b -> ~ own2 b) ->
  (forall b, own1 b -> own b) -> (forall b, own2 b -> own b) -> SetsUp own (c1 ++ c2) (fun m => r1 m /\ r2 m).
Proof.
  intros S1 S2 HL Hd O1 O2. eapply SetsUp_app; [eapply SetsUp_own; [exact O1|exact S1]|].
  intros m Hm. destruct (S2 m) as (m' & H1 & H2 & H3 & H4). exists m'. repeat split; auto.
  eapply HL; [|exact Hm]. intros l Hl. apply H4. auto.
Qed.
Lemma SetsUp_nil (own : nat -> Prop) (r : mem -> Prop) : (forall m, r m) -> SetsUp own [] r.
Proof. intros H m. exists m. cbn. auto. Qed.
End SetsUp.

Section SixClass.
Context {Op : Ops}.
Notation mem := (mem C).

(** ** the twiddle table of the n x n matrix *)
Definition wnxn_T (n e : nat) : C :=
  tw_val (n * n) (2 * snd (blk n (e / 4)) + e mod 4 mod 2) (2 * fst (blk n (e / 4)) + e mod 4 / 2).

Section Wnxn.
Variables (n m : nat).
Hypothesis Hn : n = 2 * m.
Hypothesis Hm : 0 < m.
Hypothesis H12 : n <= 2 ^ 12.
Notation L := (six_L n).

Lemma wnxn_T_at u v d : u <= v -> v < m -> d < 4 ->
  wnxn_T n (4 * wnxn_i m (2 * u) (2 * v) + d) = tw_val (n * n) (2 * v + d mod 2) (2 * u + d / 2).
Proof.
  intros H1 H2 Hd. unfold wnxn_T.
  replace (4 * wnxn_i m (2 * u) (2 * v) + d) with (d + 4 * wnxn_i m (2 * u) (2 * v)) by lia.
  rewrite div_lin, mod_lin by auto. rewrite (blk_at n m Hn H12 u v H1 H2). reflexivity.
Qed.

Definition wn_es (u j : nat) : list nat := let i := wnxn_i m (2 * u) (2 * u + 2 * j) in [4 * i + 0; 4 * i + 1; 4 * i + 2; 4 * i + 3].
Definition wn_all (u : nat) : list nat := flat_map (wn_es u) (seq 0 (m - u)).
Lemma wn_in u e : In e (wn_all u) <-> exists v d, u <= v /\ v < m /\ d < 4 /\ e = 4 * wnxn_i m (2 * u) (2 * v) + d.
Proof.
  unfold wn_all. rewrite in_flat_map. split.
  - intros (j & Hj & He). apply in_seq in Hj. unfold wn_es in He. cbv zeta in He. replace (2 * u + 2 * j) with (2 * (u + j)) in He by lia. cbn [In] in He.
    exists (u + j). repeat destruct He as [<-|He]; try destruct He; eexists; repeat split; try reflexivity; lia.
  - intros (v & d & H1 & H2 & H3 & ->). exists (v - u). split; [apply in_seq; lia|]. unfold wn_es. cbv zeta. replace (2 * u + 2 * (v - u)) with (2 * v) by lia. cbn [In]. lia.
Qed.
Lemma wn_lt u e : In e (wn_all u) -> e < 4 * L.
Proof. intros H. apply wn_in in H as (v & d & H1 & H2 & H3 & ->). pose proof (idx_lt' n m Hn u v H1 H2). lia. Qed.

Lemma wnxn_step (w : ptr) (m0 : mem) u : u < m -> allocd m0 (inR w (4 * L)) ->
  exists mi, Step (wnxn_body n w (2 * u)) no (fun l => In l (map (padd w) (wn_all u))) m0 mi /\
    forall e, In e (wn_all u) -> mi (w +! e) = Val (wnxn_T n e).
Proof.
  intros Hu Ha. unfold wnxn_body. cbv zeta.
  assert (En : n / 2 = m) by (rewrite Hn; apply half_2). rewrite En.
  assert (Ec : (n - 2 * u + 1) / 2 = m - u) by (replace (n - 2 * u + 1) with (2 * (m - u) + 1) by lia; apply half_21). rewrite Ec.
  destruct (cells_loop (m - u) (fun j =>
    let k := 2 * u + 2 * j in let i := wnxn_i m (2 * u) k in
    block [] [w +! (4 * i + 0); w +! (4 * i + 1); w +! (4 * i + 2); w +! (4 * i + 3)]
      (fun _ => [tw_val (n * n) (k + 0) (2 * u + 0); tw_val (n * n) (k + 1) (2 * u + 0); tw_val (n * n) (k + 0) (2 * u + 1); tw_val (n * n) (k + 1) (2 * u + 1)]))
    w (wn_es u) (fun _ => no) (wnxn_T n) m0) as (mi & HL & Hv).
  - intros j Hj. cbv zeta.
    destruct (block_step w [] (wn_es u j) (fun _ => let k := 2 * u + 2 * j in [tw_val (n * n) (k + 0) (2 * u + 0); tw_val (n * n) (k + 1) (2 * u + 0); tw_val (n * n) (k + 0) (2 * u + 1); tw_val (n * n) (k + 1) (2 * u + 1)]) [] (wnxn_T n) m0) as (mi & HS & Hv).
    + reflexivity.
    + unfold wn_es. cbv zeta. cbn [map]. replace (2 * u + 2 * j) with (2 * (u + j)) by lia. rewrite !wnxn_T_at by lia. cbn [Nat.modulo Nat.div Nat.divmod fst snd Nat.sub]. reflexivity.
    + intros e He. apply Ha, inR_i. apply (wn_lt u). unfold wn_all. apply in_flat_map. exists j. split; auto. apply in_seq. lia.
    + exists mi. split; [exact HS|exact Hv].
  - intros i j e Hi Hj Hne Hin. split; [|intros []]. intros Hin'.
    unfold wn_es in Hin, Hin'. cbv zeta in Hin, Hin'. replace (2 * u + 2 * i) with (2 * (u + i)) in Hin by lia. replace (2 * u + 2 * j) with (2 * (u + j)) in Hin' by lia.
    apply Hne. destruct (idx_inj m u (u + i) u (u + j)) as [_ E]; try lia. cbn [In] in Hin, Hin'. lia.
  - exists mi. split.
    + eapply Step_mono; [| |exact (lp_seq _ _ _ _ _ _ HL)].
      * intros l (_ & _ & []).
      * intros l (j & Hj & H). apply in_map_iff in H as (e & <- & He). apply in_map. unfold wn_all. apply in_flat_map. exists j. split; auto. apply in_seq. lia.
    + intros e He. unfold wn_all in He. apply in_flat_map in He as (j & Hj & He). apply in_seq in Hj. apply (Hv j); auto. lia.
Qed.

Lemma wnxn_loop (w : ptr) (m0 : mem) : allocd m0 (inR w (4 * L)) ->
  exists m', Loop m (fun q => wnxn_body n w (2 * q)) no (inR w (4 * L)) m0 m' /\ tab m' w (Lt (4 * L)) (wnxn_T n).
Proof.
  intros Ha.
  destruct (cells_loop m (fun q => wnxn_body n w (2 * q)) w wn_all (fun _ => no) (wnxn_T n) m0) as (m' & HL & Hv).
  - intros u Hu. apply wnxn_step; auto.
  - intros u u' e Hu Hu' Hne Hin. split; [|intros []]. intros Hin'. apply wn_in in Hin as (v & d & H1 & H2 & H3 & E). apply wn_in in Hin' as (v' & d' & H1' & H2' & H3' & E').
    destruct (idx_inj m u v u' v') as [E2 _]; auto. lia.
  - exists m'. split.
    + eapply Loop_mono; [| |exact HL].
      * intros l (_ & _ & []).
      * intros l (u & Hu & H). apply in_map_iff in H as (e & <- & He). apply inR_i. eapply wn_lt; eauto.
    + intros e He. unfold Lt in He. destruct (eucl 4 e ltac:(lia)) as (d & i & Hd & ->).
      destruct (idx_decode m i) as (u & v & H1 & H2 & ->); [rewrite <- Hn; lia|].
      apply (Hv u); [lia|]. apply wn_in. exists v, d. repeat split; auto. lia.
Qed.

Lemma nxn_size : n * (n + 2) / 2 = 4 * L.
Proof.
  unfold six_L. cbv zeta. rewrite Hn, half_2. replace (2 * m * (2 * m + 2)) with (2 * (2 * (m * (m + 1)))) by lia. rewrite half_2.
  assert (exists q, m * (m + 1) = 2 * q) as (q & ->).
  { destruct (eucl 2 m ltac:(lia)) as (r & q & Hr & ->). assert (r = 0 \/ r = 1) as [->| ->] by lia; [exists (q * (2 * q + 1))|exists ((1 + 2 * q) * (1 + q))]; lia. }
  rewrite half_2. lia.
Qed.

Lemma nxn_setup b : SetsUp (eq b) (init_weight_nxn n b) (fun m' : mem => tab m' (b, 0) (Lt (4 * L)) (wnxn_T n)).
Proof.
  unfold init_weight_nxn. destruct (init_iv_ok m) as (t & Et & _); [rewrite <- Hn; auto|]. rewrite Hn in *. rewrite Et, app_nil_r. rewrite <- Hn in *.
  rewrite nxn_size. unfold init_Wnxn.
  assert (E1 : (n + 2 - 1) / 2 = m) by (rewrite Hn; apply div_up; lia).
  assert (E2 : n / 2 = m) by (rewrite Hn; apply half_2).
  unfold single, for_step. rewrite E1, E2.
  destruct (n * n <? six_omp); apply SetsUp_new; auto; intros m0 Ha; destruct (wnxn_loop (b, 0) m0 Ha) as (m' & HL & Ht); exists m'; (split; [|exact Ht]).
  - eapply Step_Exec. exact (lp_seq _ _ _ _ _ _ HL).
  - exact (lp_par _ _ _ _ _ _ HL).
Qed.
End Wnxn.

Lemma sub_setup n b : pow2 n -> SetsUp (eq b) (init_weight_sub n b) (fun m' : mem => tab m' (b, 0) (NWs n) (Wt_T 8 n)).
Proof.
  intros Hp. unfold init_weight_sub. destruct (Nat.leb_spec n 8) as [H|H].
  - apply SetsUp_nil. intros m' i [Hi _]. lia.
  - destruct (pow2_div 8 n ltac:(exists 3; reflexivity) Hp ltac:(lia)) as (q & Hq1 & Hq2 & _).
    intros m. destruct (init_Wt_Exec 8 n q b (2 * n) ltac:(unfold radixp; auto) Hq1 Hq2 (le_n _) (malloc m b (2 * n)) (malloc_allocd m b _)) as (rg & m' & E & (Ho & Hr & Hc & _) & Ht).
    rewrite E. exists m'. split; [|split; [|split]].
    + cbn [acts_ok]. auto.
    + cbn [call_seq]. rewrite Hr. reflexivity.
    + intros i [_ Hi]. apply Ht. auto.
    + intros l Hl. rewrite Hc.
      * apply malloc_out. congruence.
      * intros Hi. apply inR_fst in Hi. apply Hl. rewrite Hi. reflexivity.
Qed.

Lemma m8_setup n b : SetsUp (eq b) (init_weight_8xm n b) (fun m' : mem => tab m' (b, 0) (Lt (n / 8)) (Wr1_T n)).
Proof.
  unfold init_weight_8xm, single. cbv zeta.
  eapply SetsUp_weak; [|destruct (n / 8 <? six_omp); apply (table_setup (eq b) b (n / 8) (Wr1_T n)); auto].
  intros m' H i Hi. apply H. exact Hi.
Qed.

(** ** the object *)
Definition six_ready (b n : nat) (m : mem) : Prop :=
  let N := 2 ^ n in
  if n <=? 5 then tab m (b, 0) (NWs N) (Wt_T 8 N)
  else if Nat.odd n then
    let r := 2 ^ (n / 2 - 1) in
    tab m (b, 0) (Lt (N / 8)) (Wr1_T N) /\ tab m (S b, 0) (Lt (4 * six_L r)) (wnxn_T r) /\ tab m (S (S b), 0) (NWs r) (Wt_T 8 r)
  else
    let r := 2 ^ (n / 2) in
    tab m (b, 0) (Lt (4 * six_L r)) (wnxn_T r) /\ tab m (S (S b), 0) (NWs r) (Wt_T 8 r).

Definition six_own (b c : nat) : Prop := b <= c <= b + 2.

Lemma six_ready_local b n : Local (six_own b) (six_ready b n).
Proof.
  assert (H : forall c P T, six_own b c -> Local (six_own b) (fun m : mem => tab m (c, 0) P T)) by (intros; apply tab_own_local; auto).
  unfold six_ready. cbv zeta. intros m m' Hf.
  destruct (n <=? 5); [|destruct (Nat.odd n)].
  - apply (H b); unfold six_own; auto; lia.
  - intros (H1 & H2 & H3). repeat split; (eapply H; [|exact Hf|eassumption]); unfold six_own; lia.
  - intros (H1 & H2). repeat split; (eapply H; [|exact Hf|eassumption]); unfold six_own; lia.
Qed.

Lemma pow_half h : 1 <= h -> exists m, 2 ^ h = 2 * m /\ 0 < m.
Proof. intros H. destruct h as [|h]; [lia|]. exists (2 ^ h). split; [reflexivity|apply pow2_pos]. Qed.

Lemma odd_half n : Nat.odd n = true -> exists h, n = 2 * h + 1 /\ n / 2 = h.
Proof. intros H. apply Nat.odd_spec in H as (h & ->). exists h. split; auto. apply half_21. Qed.
Lemma even_half n : Nat.odd n = false -> exists h, n = 2 * h /\ n / 2 = h.
Proof. intros H. rewrite <- Nat.negb_even in H. apply negb_false_iff, Nat.even_spec in H as (h & ->). exists h. split; auto. apply half_2. Qed.

Lemma pow_le_12 h : h <= 12 -> 2 ^ h <= 2 ^ 12.
Proof. intros H. apply Nat.pow_le_mono_r; lia. Qed.

Lemma six_setup_ok b n : n <= 24 -> SetsUp (six_own b) (six_setup2 b n) (six_ready b n).
Proof.
  intros Hn. unfold six_setup2, six_ready. cbv zeta.
  assert (Hp : forall k, pow2 (2 ^ k)) by (intros k; eexists; reflexivity).
  destruct (Nat.leb_spec n 5) as [H5|H5]; [|destruct (Nat.odd n) eqn:Eo].
  - eapply SetsUp_own; [|apply sub_setup; auto]. unfold six_own. intros c <-. lia.
  - destruct (odd_half n Eo) as (h & -> & Eh). rewrite Eh.
    destruct (pow_half (h - 1) ltac:(lia)) as (m & Em & Hm).
    pose proof (pow_le_12 (h - 1) ltac:(lia)) as H12.
    apply (SetsUp_two (eq b) (fun c => S b = c \/ S (S b) = c)).
    + apply m8_setup.
    + eapply (SetsUp_two (eq (S b)) (eq (S (S b)))); [eapply nxn_setup; eauto|apply sub_setup; auto| | | |]; auto.
      * apply tab_own_local; auto.
      * intros c <-. lia.
    + apply tab_own_local; auto.
    + intros c <-. lia.
    + unfold six_own. intros c <-. lia.
    + unfold six_own. lia.
  - destruct (even_half n Eo) as (h & -> & Eh). rewrite Eh.
    destruct (pow_half h ltac:(lia)) as (m & Em & Hm).
    pose proof (pow_le_12 h ltac:(lia)) as H12.
    apply (SetsUp_two (eq b) (eq (S (S b)))); [eapply nxn_setup; eauto|apply sub_setup; auto| | | |].
    + apply tab_own_local; auto.
    + intros c <-. lia.
    + unfold six_own. intros c <-. lia.
    + unfold six_own. intros c <-. lia.
Qed.

Definition six_F (n : nat) (k : meth) (X : nat -> C) : nat -> C :=
  let N := 2 ^ n in
  if n <=? 5 then pow_ff false DIF8 (meth_inv k) (meth_mode k) N N 1 (Wt_T 8 N) X
  else if Nat.odd n then let r := 2 ^ (n / 2 - 1) in eightF (meth_inv k) N (meth_mode k) r (Wr1_T N) (wnxn_T r) (Wt_T 8 r) X
  else let r := 2 ^ (n / 2) in sixF (meth_inv k) N (meth_mode k) r (wnxn_T r) (Wt_T 8 r) X.

Lemma six_run_ok b n k : 1 <= n <= 24 ->
  Transforms (six_own b) (six_ready b n) (2 ^ n) (six_run b n k) (six_F n k).
Proof.
  intros Hn x y m X Hx Hy Hxy Hrd Hh Ha.
  assert (HdT : forall c P z, six_own b c -> ~ six_own b (fst z) -> disjT (c, 0) P z (2 ^ n)).
  { intros c P z Hc Hz i j _ _ E. apply Hz. unfold padd in E. injection E as E _. cbn in E. rewrite <- E. auto. }
  assert (Ob : six_own b b /\ six_own b (S b) /\ six_own b (S (S b))) by (unfold six_own; lia). destruct Ob as (O0 & O1 & O2).
  unfold six_run, six_ready, six_F in *. cbv zeta in *.
  destruct (Nat.eqb_spec n 0); [lia|]. destruct (Nat.leb_spec n 5) as [H5|H5].
  - assert (Hp : pow2 (2 ^ n)) by (eexists; reflexivity).
    assert (H2 : 2 <= 2 ^ n) by (destruct n; [lia|]; cbn [Nat.pow]; pose proof (pow2_pos n); lia).
    pose proof (fft_s_C DIF8 (meth_inv k) (meth_mode k) (2 ^ n) 1 false x y (b, 0) H2 Hp (or_introl eq_refl) (NWs (2 ^ n))) as HC.
    rewrite Nat.mul_1_r in HC. specialize (HC (fun Hlt i Hi => conj Hlt Hi)).
    destruct (Computes_Step _ _ _ _ _ _ _ _ _ m (Wt_T 8 (2 ^ n)) X (HC ltac:(split; [auto|]; split; apply HdT; auto))) as (m' & HS & Ho); auto.
    { intros l [Hl|Hl]; [eapply holds_allocd; eauto|auto]. }
    exists m'. split; [|exact Ho]. apply CExec_par. eapply Step_Exec. exact HS.
  - destruct (Nat.ltb_spec 24 n); [lia|].
    destruct (Nat.odd n) eqn:Eo.
    + destruct (odd_half n Eo) as (h & E & Eh). rewrite Eh in *.
      destruct (pow_half (h - 1) ltac:(lia)) as (q & Em & Hm). pose proof (pow_le_12 (h - 1) ltac:(lia)) as H12.
      destruct Hrd as (R1 & R2 & R3).
      assert (EN : 2 ^ n = 8 * (2 ^ (h - 1) * 2 ^ (h - 1))).
      { change 8 with (2 ^ 3). rewrite <- !Nat.pow_add_r. f_equal. lia. }
      assert (En : n = 2 * (h - 1) + 3) by lia.
      assert (E8 : 2 ^ n / 8 = 2 ^ (h - 1) * 2 ^ (h - 1)) by (rewrite EN, Nat.mul_comm; apply Nat.div_mul; lia).
      rewrite E8 in R1.
      destruct (eight_ok (2 ^ (h - 1)) (h - 1) q (2 ^ n) x y (b, 0) (S b, 0) (S (S b), 0) eq_refl ltac:(lia) Em H12 EN (meth_inv k) (meth_mode k)
        Hxy) with (m0 := m) (T := Wr1_T (2 ^ n)) (Tm := wnxn_T (2 ^ (h - 1))) (Ts := Wt_T 8 (2 ^ (h - 1))) (X := X)
        (c := if 2 ^ n <? eight_omp1 then @eight_serial Op else if 2 ^ n <? eight_omp2 then @eight_parallel Op else @eight_large Op) as (m' & HE & Ho); auto.
      { destruct (2 ^ n <? eight_omp1); [|destruct (2 ^ n <? eight_omp2)]; cbn [In]; auto. }
      exists m'. rewrite <- En in HE. split; [|exact Ho]. unfold eight_fft. destruct (2 ^ n <? eight_omp1); [|destruct (2 ^ n <? eight_omp2)]; exact HE.
    + destruct (even_half n Eo) as (h & E & Eh). rewrite Eh in *.
      destruct (pow_half h ltac:(lia)) as (q & Em & Hm). pose proof (pow_le_12 h ltac:(lia)) as H12.
      destruct Hrd as (R1 & R2).
      assert (EN : 2 ^ n = 2 ^ h * 2 ^ h) by (rewrite <- Nat.pow_add_r; f_equal; lia).
      rewrite EN in *.
      destruct (six_ok (2 ^ h) h q x y (b, 0) (S (S b), 0) eq_refl ltac:(lia) Em H12 (meth_inv k) (meth_mode k) m X (wnxn_T (2 ^ h)) (Wt_T 8 (2 ^ h)))
        as (m' & S1 & _ & E2 & Ho); auto.
      exists m'. split; auto. unfold six_fft, six_serial, six_parallel. rewrite E. destruct (2 ^ (2 * h) <? six_omp); apply CExec_par; [eapply Step_Exec; exact S1|exact E2].
Qed.

End SixClass.
