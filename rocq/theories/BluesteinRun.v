(** * Bluestein: padding, table, setup and methods, any arithmetic *)

From Coq Require Import List Arith ZArith Bool Lia.
From Verif Require Import Scalar Mem MemFacts Omp OmpFacts Lanes Stage Object ObjectFacts Engine Steps Blocks SixClass FactorFacts
  ModelApi History ApiFacts Footprint ComplexThms GObj ModelReal RealFacts RealRun RealObj DctRun ModelBluestein.
Import ListNotations.

(** lengths BluesteinFFT supports (documented: up to 2^28) *)
Definition bl_length (N : nat) : Prop := 1 <= N /\ (Z.of_nat N <= 2 ^ 29)%Z.

(** ** padding *)
Lemma pad_loop_spec fuel : forall n B, (Z.of_nat B <= 2 ^ 30)%Z -> n + fuel = 32 -> 2 ^ n < 2 * B \/ n = 0 ->
  exists k, pad_loop fuel (2 ^ n) B = Some (2 ^ k) /\ n <= k <= 30 /\ B <= 2 ^ k /\ (2 ^ k < 2 * B \/ k = 0).
Proof.
  induction fuel as [|fuel IH]; intros n B HB Hn HI.
  - exfalso. assert (n = 32) by lia. subst n. destruct HI as [HI|HI]; [|lia].
    apply inj_lt in HI. rewrite Nat2Z.inj_pow, Nat2Z.inj_mul in HI. change (Z.of_nat 2 ^ Z.of_nat 32)%Z with (2 ^ 32)%Z in HI.
    change (2 ^ 32)%Z with (4 * 2 ^ 30)%Z in HI. lia.
  - cbn [pad_loop]. destruct (Nat.ltb_spec (2 ^ n) B) as [Hl|Hl].
    + assert (Hz : (2 ^ Z.of_nat n < 2 ^ 30)%Z).
      { apply inj_lt in Hl. rewrite Nat2Z.inj_pow in Hl. change (Z.of_nat 2) with 2%Z in Hl. lia. }
      assert (Hn30 : n < 30).
      { destruct (Nat.lt_ge_cases n 30); auto. exfalso. assert (2 ^ 30 <= 2 ^ Z.of_nat n)%Z by (apply Z.pow_le_mono_r; lia). lia. }
      assert (Hm : mul_ok (2 ^ n) 2 = true).
      { unfold mul_ok, INT_MAX. apply Z.leb_le. rewrite Nat2Z.inj_pow. change (Z.of_nat 2) with 2%Z.
        assert (2 ^ Z.of_nat n <= 2 ^ 29)%Z by (apply Z.pow_le_mono_r; lia). change (2 ^ 29)%Z with 536870912%Z in *. lia. }
      rewrite Hm. replace (2 ^ n * 2) with (2 ^ S n) by (cbn; lia).
      destruct (IH (S n) B HB) as (k & E & Hk & H1 & H2); [lia|left; cbn; lia|].
      exists k. split; [exact E|]. split; [lia|]. auto.
    + exists n. split; [reflexivity|]. split; [|auto]. split; [lia|].
      destruct HI as [HI|HI]; [|lia]. destruct (Nat.le_gt_cases n 30); auto. exfalso.
      apply inj_lt in HI. rewrite Nat2Z.inj_pow, Nat2Z.inj_mul in HI. change (Z.of_nat 2) with 2%Z in HI.
      assert (2 ^ 31 <= 2 ^ Z.of_nat n)%Z by (apply Z.pow_le_mono_r; lia). change (2 ^ 31)%Z with (2 * 2 ^ 30)%Z in *. lia.
Qed.
Lemma bl_pad N : bl_length N ->
  exists n, pad_loop 32 1 (2 * N - 1) = Some (2 ^ n) /\ n <= 30 /\ 2 * N - 1 <= 2 ^ n /\ (2 ^ n < 2 * (2 * N - 1) \/ n = 0).
Proof.
  intros (H1 & H2). destruct (pad_loop_spec 32 0 (2 * N - 1)) as (n & E & Hn & A & B); auto.
  - change (2 ^ 29)%Z with 536870912%Z in H2. change (2 ^ 30)%Z with 1073741824%Z. lia.
  - exists n. repeat split; auto. lia.
Qed.
Lemma bl_mul_ok N : bl_length N -> mul_ok 2 N = true.
Proof. intros (H1 & H2). unfold mul_ok, INT_MAX. apply Z.leb_le. change (Z.of_nat 2) with 2%Z. change (2 ^ 29)%Z with 536870912%Z in H2. lia. Qed.
Lemma valid_pow2 n : 1 <= n <= 30 -> valid_length (2 ^ n).
Proof.
  intros Hn. split; [|split].
  - change 2 with (2 ^ 1) at 1. apply Nat.pow_le_mono_r; lia.
  - rewrite Nat2Z.inj_pow. apply Z.pow_le_mono_r; lia.
  - apply factors_fit_pow2.
Qed.
Lemma bl_pad_valid N L : bl_length N -> pad_loop 32 1 (2 * N - 1) = Some L -> 2 * N - 1 <= L /\ (2 <= N -> valid_length L).
Proof.
  intros HN E. destruct (bl_pad N HN) as (n & E' & Hn & HL & _). rewrite E in E'. injection E' as ->. split; [exact HL|].
  intros H2. apply valid_pow2. split; [|exact Hn]. destruct n; [cbn in HL; lia|lia].
Qed.

Section BlRun.
Context {Op : Ops}.
Notation mem := (mem C).
Notation act := (act C).

(** ** the table *)
Definition bl_ang (N p : nat) : Sc := smul (sn p) (sdiv spi (sn N)).
Definition bl_T (N e : nat) : C :=
  if e =? 0 then c1 else if e =? 2 * N then c1 else if e =? N then mkC (sofZ (-1)) s0
  else if e <? N then mkC (scos (bl_ang N e)) (sneg (ssin (bl_ang N e)))
  else mkC (scos (bl_ang N (2 * N - e))) (sneg (sneg (ssin (bl_ang N (2 * N - e))))).

Lemma bl_table_ok N (W : ptr) (m : mem) : 1 <= N -> allocd m (inR W (2 * N + 1)) ->
  exists m', CExec ([Par [single (block [] [W +! (2 * N); W +! 0; W +! N] (fun _ => [c1; c1; mkC (sofZ (-1)) s0]))]] ++
      (if N <? base_omp_w then [Par [single (for_ (N - 1) (bl_W_body N W))]] else [Par [(N - 1, bl_W_body N W)]]))
      (inR W (2 * N + 1)) m m' /\ holds m' W (2 * N + 1) (bl_T N).
Proof.
  intros HN Ha.
  destruct (block_last_step [] [W +! (2 * N); W +! 0; W +! N] (fun _ => [c1; c1; mkC (sofZ (-1)) s0]) [] m) as (m1 & S1 & V1).
  { reflexivity. } { reflexivity. }
  { intros l Hl. apply Ha. cbn [In] in Hl. destruct Hl as [<- | [<- | [<- | []]]]; apply inR_i; lia. }
  assert (S1' := Step_s _ _ _ _ _ S1). apply (CExec_mono _ _ (inR W (2 * N + 1))) in S1'.
  2:{ intros l Hl. cbn [In] in Hl. destruct Hl as [<- | [<- | [<- | []]]]; apply inR_i; lia. }
  destruct (iloop (N - 1) (fun _ => []) W (fun i => [i + 1; 2 * N - (i + 1)])
    (fun i _ => [mkC (scos (bl_ang N (i + 1))) (sneg (ssin (bl_ang N (i + 1)))); mkC (scos (bl_ang N (i + 1))) (sneg (sneg (ssin (bl_ang N (i + 1)))))])
    (fun _ => []) m1) as (m2 & L2 & V2).
  { reflexivity. } { reflexivity. }
  { intros i e Hi He. eapply chg_allocd; [apply S1'|exact Ha|]. apply inR_i. cbn [In] in He. lia. }
  { intros i j e Hi Hj Hne He. split; [intros []|]. cbn [In] in *. lia. }
  assert (Hs2 : forall l, (exists i e, i < N - 1 /\ In e [i + 1; 2 * N - (i + 1)] /\ l = W +! e) -> inR W (2 * N + 1) l).
  { intros l (i & e & Hi & He & ->). apply inR_i. cbn [In] in He. lia. }
  exists m2. split.
  - eapply CExec_app; [exact S1'| | |].
    + destruct (N <? base_omp_w); [eapply Loop_s in L2|eapply Loop_p in L2]; exact L2.
    + auto.
    + exact Hs2.
  - intros e He. unfold bl_T.
    assert (Keep : e = 0 \/ e = N \/ e = 2 * N -> m2 (W +! e) = m1 (W +! e)).
    { intros Hc. apply (Loop_chg _ _ _ _ _ _ L2). intros (i & e' & Hi & He' & E). apply padd_inj in E. cbn [In] in He'. lia. }
    assert (A : forall e', alast [W +! (2 * N); W +! 0; W +! N] [c1; c1; mkC (sofZ (-1)) s0] (W +! e') = ilast [2 * N; 0; N] [c1; c1; mkC (sofZ (-1)) s0] e').
    { intros e'. apply (ilast_alast W [2 * N; 0; N]). }
    destruct (Nat.eqb_spec e 0) as [->|H0].
    { rewrite Keep by auto. apply (V1 (W +! 0)). rewrite A. cbn [ilast]. destruct (Nat.eqb_spec 0 N); [lia|]. reflexivity. }
    destruct (Nat.eqb_spec e (2 * N)) as [->|H2].
    { rewrite Keep by auto. apply (V1 (W +! (2 * N))). rewrite A. cbn [ilast]. destruct (Nat.eqb_spec (2 * N) N); [lia|].
      destruct (Nat.eqb_spec (2 * N) 0); [lia|]. rewrite Nat.eqb_refl. reflexivity. }
    destruct (Nat.eqb_spec e N) as [->|H1].
    { rewrite Keep by auto. apply (V1 (W +! N)). rewrite A. cbn [ilast]. rewrite Nat.eqb_refl. reflexivity. }
    destruct (Nat.ltb_spec e N) as [Hl|Hl].
    + apply (V2 (e - 1) e); [lia|]. replace (e - 1 + 1) with e by lia. cbn [ilast].
      destruct (Nat.eqb_spec e (2 * N - e)); [lia|]. rewrite Nat.eqb_refl. reflexivity.
    + apply (V2 (2 * N - e - 1) e); [lia|]. replace (2 * N - e - 1 + 1) with (2 * N - e) by lia. cbn [ilast].
      destruct (Nat.eqb_spec e (2 * N - (2 * N - e))); [reflexivity|lia].
Qed.

(** ** setup *)
Definition bl_own (b c : nat) : Prop := b <= c <= b + 6.
Definition bl_ready (b N : nat) (m : mem) : Prop :=
  forall L, pad_loop 32 1 (2 * N - 1) = Some L ->
    fft_ready b L m /\ ((allocd m (inR (b + 4, 0) L) /\ allocd m (inR (b + 5, 0) L)) /\ holds m (b + 6, 0) (2 * N + 1) (bl_T N)).
Lemma bl_ready_local b N : Local (bl_own b) (bl_ready b N).
Proof.
  intros m m' Hf Hr L E. specialize (Hr L E). revert Hr.
  assert (HL : Local (bl_own b) (fun m : mem => fft_ready b L m /\ ((allocd m (inR (b + 4, 0) L) /\ allocd m (inR (b + 5, 0) L)) /\ holds m (b + 6, 0) (2 * N + 1) (bl_T N)))).
  { apply Local_and; [|apply Local_and; [apply Local_and|]].
    - eapply Local_sub; [|apply fft_ready_local]. unfold fft_own, bl_own. intros; lia.
    - apply allocd_own_local. unfold bl_own. lia.
    - apply allocd_own_local. unfold bl_own. lia.
    - apply holds_own_local. unfold bl_own. cbn. lia. }
  apply HL. exact Hf.
Qed.
Lemma bl_setup_ok b N : bl_length N -> SetsUp (bl_own b) (bl_setup b N) (bl_ready b N).
Proof.
  intros HN. destruct (bl_pad N HN) as (n & E & _). unfold bl_setup, bl_ready. cbv zeta.
  destruct (Nat.ltb_spec N 1); [destruct HN; lia|]. rewrite (bl_mul_ok N HN), E. cbn [negb].
  set (L := 2 ^ n) in *. clearbody L.
  intros m.
  edestruct (SetsUp_two (fft_own b) (fun c => b + 4 <= c <= b + 6) (bl_own b) (fft_setup b L)) as (m' & H1 & H2 & H3 & H4).
  - apply fft_setup_ok.
  - eapply (SetsUp_two (fun c => b + 4 <= c <= b + 5) (eq (b + 6)) _ [New (b + 4) L; New (b + 5) L]).
    + apply (SetsUp_two (eq (b + 4)) (eq (b + 5)) _ [New (b + 4) L] [New (b + 5) L]).
      * apply SetsUp_alloc.
      * apply SetsUp_alloc.
      * apply allocd_own_local. auto.
      * intros c <-. lia.
      * intros c <-. lia.
      * intros c <-. lia.
    + apply SetsUp_newc. intros m0 Ha. apply (bl_table_ok N (b + 6, 0) m0); [apply HN|exact Ha].
    + apply Local_and; apply allocd_own_local; lia.
    + lia.
    + lia.
    + lia.
  - apply fft_ready_local.
  - unfold fft_own. lia.
  - unfold fft_own, bl_own. lia.
  - unfold bl_own. lia.
  - exists m'. split; [exact H1|]. split; [exact H2|]. split; [|exact H4]. intros L' E'. injection E' as <-. exact H3.
Qed.

(** ** methods *)
Definition bl_e1 (inverse : bool) (N p : nat) : nat := let pp := (p * p) mod (2 * N) in if inverse then 2 * N - pp else pp.
Definition bl_e2 (inverse : bool) (N p : nat) : nat := let pp := (p * p) mod (2 * N) in if inverse then pp else 2 * N - pp.
Definition bl_A (inverse : bool) (N : nat) (T X : nat -> C) (p : nat) : C :=
  if p =? 0 then X 0 else if p <? N then cmulT (X p) (T (bl_e1 inverse N p)) else c0.
Definition bl_x (inverse : bool) (N : nat) (T : nat -> C) (p : nat) : C := if p =? 0 then c1 else T (bl_e2 inverse N p).
Definition bl_B (inverse : bool) (N L : nat) (T : nat -> C) (p : nat) : C :=
  if p <? N then bl_x inverse N T p else if L - p <? N then bl_x inverse N T (L - p) else c0.
Definition bl_FL (N L : nat) (k : meth) (X : nat -> C) (p : nat) : C :=
  let inverse := meth_inv k in
  let A := fft0_F L fwd0 (bl_A inverse N (bl_T N) X) in
  let B := fft0_F L fwd0 (bl_B inverse N L (bl_T N)) in
  bl_scale N k (cmul (fft0_F L invn (fun j => cmul (A j) (B j)) p) (cconj (bl_x inverse N (bl_T N) p))).
Definition bl_F (N : nat) (k : meth) (X : nat -> C) (p : nat) : C :=
  if N <? 2 then X p else match pad_loop 32 1 (2 * N - 1) with Some L => bl_FL N L k X p | None => X p end.

Definition bl_fp (b : nat) (x : ptr) (N L : nat) (l : loc) : Prop :=
  inR x N l \/ inR (b + 4, 0) L l \/ inR (b + 5, 0) L l \/ inR (b + 3, 0) L l.

Lemma bl_e_lt inverse N p : 0 < N -> bl_e1 inverse N p < 2 * N + 1 /\ bl_e2 inverse N p < 2 * N + 1.
Proof.
  intros HN. unfold bl_e1, bl_e2. pose proof (Nat.mod_upper_bound (p * p) (2 * N) ltac:(lia)). destruct inverse; lia.
Qed.

Lemma bl_run_L_ok b N L k x (m : mem) X : 2 <= N -> 2 * N - 1 <= L -> valid_length L -> ~ bl_own b (fst x) ->
  fft_ready b L m -> allocd m (inR (b + 4, 0) L) -> allocd m (inR (b + 5, 0) L) -> holds m (b + 6, 0) (2 * N + 1) (bl_T N) ->
  holds m x N X ->
  exists m', CExec (bl_run_L b N L k x) (bl_fp b x N L) m m' /\ holds m' x N (bl_FL N L k X).
Proof.
  intros HN HL HvL Hx Hr Ha Hb HW HX. unfold bl_run_L. destruct (Nat.ltb_spec N 2); [lia|].
  set (a := (b + 4, 0) : ptr) in *. set (bb := (b + 5, 0) : ptr) in *. set (W := (b + 6, 0) : ptr) in *.
  set (iv := meth_inv k). set (T := bl_T N) in *.
  assert (Dxa : disjR x N a L) by (apply disjR_buf; cbn; unfold bl_own in Hx; lia).
  assert (Dxb : disjR x N bb L) by (apply disjR_buf; cbn; unfold bl_own in Hx; lia).
  assert (Dab : disjR a L bb L) by (apply disjR_buf; cbn; lia).
  assert (DxW : disjR x N W (2 * N + 1)) by (apply disjR_buf; cbn; unfold bl_own in Hx; lia).
  assert (DaW : disjR a L W (2 * N + 1)) by (apply disjR_buf; cbn; lia).
  assert (DbW : disjR bb L W (2 * N + 1)) by (apply disjR_buf; cbn; lia).
  assert (Hax : allocd m (inR x N)) by (eapply holds_allocd; eauto).
  set (S0 := fun l => inR x N l \/ inR a L l \/ inR bb L l).
  assert (SO : forall l, S0 l -> ~ fft_own b (fst l)).
  { intros l [Hl|[Hl|Hl]] Ho; apply inR_fst in Hl; rewrite Hl in Ho; unfold fft_own, bl_own in *; cbn in Ho; lia. }
  (* first elements *)
  destruct (block_last_step [x +! 0] [a +! 0; x +! 0; bb +! 0] (fun v => match v with [x0] => [x0; c1; c1] | _ => [] end) [X 0] m) as (m1 & S1 & V1).
  { unfold reads. cbn [map]. rewrite HX by lia. reflexivity. } { reflexivity. }
  { intros l Hl. cbn [In] in Hl. destruct Hl as [<- | [<- | [<- | []]]]; [apply Ha|apply Hax|apply Hb]; apply inR_i; lia. }
  assert (C1 : CExec [Par [single (bl_first a bb x)]] S0 m m1).
  { eapply CExec_mono; [|eapply Step_s; exact S1]. intros l Hl. cbn [In] in Hl.
    destruct Hl as [<- | [<- | [<- | []]]]; unfold S0; [right; left|left|right; right]; apply inR_i; lia. }
  assert (Va1 : m1 (a +! 0) = Val (X 0)).
  { apply V1. cbn [alast]. destruct (loc_eqb_spec (a +! 0) (bb +! 0)) as [E|_]; [exfalso; eapply (Dab 0 0); eauto; lia|].
    destruct (loc_eqb_spec (a +! 0) (x +! 0)) as [E|_]; [exfalso; eapply (Dxa 0 0); eauto; lia|].
    destruct (loc_eqb_spec (a +! 0) (a +! 0)); [reflexivity|congruence]. }
  assert (Vx1 : m1 (x +! 0) = Val c1).
  { apply V1. cbn [alast]. destruct (loc_eqb_spec (x +! 0) (bb +! 0)) as [E|_]; [exfalso; eapply (Dxb 0 0); eauto; lia|].
    destruct (loc_eqb_spec (x +! 0) (x +! 0)); [reflexivity|congruence]. }
  assert (Vb1 : m1 (bb +! 0) = Val c1).
  { apply V1. cbn [alast]. destruct (loc_eqb_spec (bb +! 0) (bb +! 0)); [reflexivity|congruence]. }
  assert (HX1 : forall p, 0 < p < N -> m1 (x +! p) = Val (X p)).
  { intros p Hp. destruct (Step_chg _ _ _ _ _ S1) as (F1 & _). rewrite F1; [apply HX; lia|]. cbn [In].
    intros [E|[E|[E|[]]]].
    - apply (Dxa p 0); auto; lia.
    - apply padd_inj in E. lia.
    - apply (Dxb p 0); auto; lia. }
  assert (A1 : allocd m1 S0).
  { eapply chg_allocd; [apply C1|]. intros l [Hl|[Hl|Hl]]; auto. }
  assert (HW1 : holds m1 W (2 * N + 1) T).
  { eapply chg_holds; [apply C1|exact HW|]. intros l Hl [H'|[H'|H']]; [eapply (disjR_inR x N W)|eapply (disjR_inR a L W)|eapply (disjR_inR bb L W)]; eauto. }
  assert (Hr1 : fft_ready b L m1) by (eapply CExec_ready; [apply fft_ready_local|exact Hr|exact C1|exact SO]).
  (* zeroes *)
  destruct (blocks_loop (L - 1) (fun _ => []) (fun i => [bb +! (i + 1); a +! (i + 1)]) (fun _ _ => [c0; c0]) (fun _ => []) m1) as (m2 & L2 & V2).
  { reflexivity. } { reflexivity. }
  { intros i l Hi Hl. cbn [In] in Hl. apply A1. unfold S0. destruct Hl as [<- | [<- | []]]; [right; right|right; left]; apply inR_i; lia. }
  { intros i j l Hi Hj Hne Hl. split; [intros []|]. cbn [In] in *. intros Hl'.
    destruct Hl as [<- | [<- | []]], Hl' as [E | [E | []]];
      first [apply padd_inj in E; lia | eapply (Dab (j + 1) (i + 1)); eauto; lia | eapply (Dab (i + 1) (j + 1)); eauto; lia]. }
  assert (Va2 : forall p, 0 < p < L -> m2 (a +! p) = Val c0 /\ m2 (bb +! p) = Val c0).
  { intros p Hp. assert (E : p - 1 + 1 = p) by lia. split.
    - apply (V2 (p - 1)); [lia|]. rewrite E. cbn [alast]. destruct (loc_eqb_spec (a +! p) (a +! p)); [reflexivity|congruence].
    - apply (V2 (p - 1)); [lia|]. rewrite E. cbn [alast].
      destruct (loc_eqb_spec (bb +! p) (a +! p)) as [E'|_]; [exfalso; eapply (Dab p p); eauto; lia|].
      destruct (loc_eqb_spec (bb +! p) (bb +! p)); [reflexivity|congruence]. }
  assert (F2 : forall l, (forall p, 0 < p < L -> l <> a +! p /\ l <> bb +! p) -> m2 l = m1 l).
  { intros l Hl. apply (Loop_chg _ _ _ _ _ _ L2). intros (i & Hi & Hin). cbn [In] in Hin. destruct (Hl (i + 1)) as (B1 & B2); [lia|]. intuition. }
  assert (S2s : forall l, (exists i, i < L - 1 /\ In l [bb +! (i + 1); a +! (i + 1)]) -> S0 l).
  { intros l (i & Hi & Hin). cbn [In] in Hin. unfold S0. destruct Hin as [<- | [<- | []]]; [right; right|right; left]; apply inR_i; lia. }
  assert (A2 : allocd m2 S0) by (eapply chg_allocd; [eapply Loop_chg; exact L2|exact A1]).
  assert (HW2 : holds m2 W (2 * N + 1) T).
  { intros e He. rewrite F2; [apply HW1; auto|]. intros p Hp. split; intros E; [eapply (DaW p e)|eapply (DbW p e)]; eauto; lia. }
  assert (HX2 : forall p, 0 < p < N -> m2 (x +! p) = Val (X p)).
  { intros p Hp. rewrite F2; [apply HX1; auto|]. intros q Hq. split; intros E; [eapply (Dxa p q)|eapply (Dxb p q)]; eauto; lia. }
  assert (E2 : forall l, l = a +! 0 \/ l = bb +! 0 \/ l = x +! 0 -> m2 l = m1 l).
  { intros l Hl. apply F2. intros p Hp.
    destruct Hl as [-> | [-> | ->]]; split; intros E.
    - apply padd_inj in E. lia.
    - apply (Dab 0 p); auto; lia.
    - apply (Dab p 0); auto; lia.
    - apply padd_inj in E. lia.
    - apply (Dxa 0 p); auto; lia.
    - apply (Dxb 0 p); auto; lia. }
  (* chirp *)
  set (wr := fun i => [a +! (i + 1); x +! (i + 1); bb +! (i + 1); bb +! (L - (i + 1))]).
  assert (KW : forall i l, i < N - 1 -> In l (wr i) -> l = a +! (i + 1) \/ l = x +! (i + 1) \/ l = bb +! (i + 1) \/ l = bb +! (L - (i + 1))).
  { intros i l _ Hl. unfold wr in Hl. cbn [In] in Hl. intuition. }
  destruct (blocks_loop (N - 1) (fun i => [x +! (i + 1); W +! (bl_e1 iv N (i + 1)); W +! (bl_e2 iv N (i + 1))]) wr
    (fun _ v => match v with [xp; w; w'] => [cmulT xp w; w'; w'; w'] | _ => [] end)
    (fun i => [X (i + 1); T (bl_e1 iv N (i + 1)); T (bl_e2 iv N (i + 1))]) m2) as (m3 & L3 & V3).
  { intros i Hi. destruct (bl_e_lt iv N (i + 1)) as (H1 & H2); [lia|]. unfold reads. cbn [map]. rewrite HX2, !HW2 by lia. reflexivity. }
  { reflexivity. }
  { intros i l Hi Hl. apply A2. unfold S0. destruct (KW i l Hi Hl) as [-> | [-> | [-> | ->]]]; [right; left|left|right; right|right; right]; apply inR_i; lia. }
  { intros i j l Hi Hj Hne Hl. destruct (bl_e_lt iv N (j + 1)) as (B1 & B2); [lia|]. split.
    - cbn [In]. intros [E|[E|[E|[]]]]; symmetry in E;
      destruct (KW i l Hi Hl) as [K | [K | [K | K]]]; rewrite K in E.
      + apply (Dxa (j + 1) (i + 1)); auto; lia.
      + apply padd_inj in E; lia.
      + apply (Dxb (j + 1) (i + 1)); auto; lia.
      + apply (Dxb (j + 1) (L - (i + 1))); auto; lia.
      + apply (DaW (i + 1) (bl_e1 iv N (j + 1))); auto; lia.
      + apply (DxW (i + 1) (bl_e1 iv N (j + 1))); auto; lia.
      + apply (DbW (i + 1) (bl_e1 iv N (j + 1))); auto; lia.
      + apply (DbW (L - (i + 1)) (bl_e1 iv N (j + 1))); auto; lia.
      + apply (DaW (i + 1) (bl_e2 iv N (j + 1))); auto; lia.
      + apply (DxW (i + 1) (bl_e2 iv N (j + 1))); auto; lia.
      + apply (DbW (i + 1) (bl_e2 iv N (j + 1))); auto; lia.
      + apply (DbW (L - (i + 1)) (bl_e2 iv N (j + 1))); auto; lia.
    - intros Hl'. destruct (KW i l Hi Hl) as [K | [K | [K | K]]], (KW j l Hj Hl') as [K' | [K' | [K' | K']]]; rewrite K in K'.
      + apply padd_inj in K'; lia.
      + apply (Dxa (j + 1) (i + 1)); auto; lia.
      + apply (Dab (i + 1) (j + 1)); auto; lia.
      + apply (Dab (i + 1) (L - (j + 1))); auto; lia.
      + apply (Dxa (i + 1) (j + 1)); auto; lia.
      + apply padd_inj in K'; lia.
      + apply (Dxb (i + 1) (j + 1)); auto; lia.
      + apply (Dxb (i + 1) (L - (j + 1))); auto; lia.
      + apply (Dab (j + 1) (i + 1)); auto; lia.
      + apply (Dxb (j + 1) (i + 1)); auto; lia.
      + apply padd_inj in K'; lia.
      + apply padd_inj in K'; lia.
      + apply (Dab (j + 1) (L - (i + 1))); auto; lia.
      + apply (Dxb (j + 1) (L - (i + 1))); auto; lia.
      + apply padd_inj in K'; lia.
      + apply padd_inj in K'; lia. }
  assert (S3s : forall l, (exists i, i < N - 1 /\ In l (wr i)) -> S0 l).
  { intros l (i & Hi & Hl). unfold S0. destruct (KW i l Hi Hl) as [-> | [-> | [-> | ->]]]; [right; left|left|right; right|right; right]; apply inR_i; lia. }
  assert (F3 : forall l, (forall p, 0 < p < N -> l <> a +! p /\ l <> x +! p /\ l <> bb +! p /\ l <> bb +! (L - p)) -> m3 l = m2 l).
  { intros l Hl. apply (Loop_chg _ _ _ _ _ _ L3). intros (i & Hi & Hin). destruct (Hl (i + 1)) as (B1 & B2 & B3 & B4); [lia|].
    destruct (KW i l Hi Hin) as [K | [K | [K | K]]]; contradiction. }
  assert (W3 : forall p, 0 < p < N -> m3 (a +! p) = Val (cmulT (X p) (T (bl_e1 iv N p))) /\ m3 (x +! p) = Val (T (bl_e2 iv N p)) /\
     m3 (bb +! p) = Val (T (bl_e2 iv N p)) /\ m3 (bb +! (L - p)) = Val (T (bl_e2 iv N p))).
  { intros p Hp. assert (E : p - 1 + 1 = p) by lia. specialize (V3 (p - 1)). unfold wr in V3. rewrite E in V3.
    assert (Hi : p - 1 < N - 1) by lia.
    repeat split; apply V3; auto; cbn [alast].
    - destruct (loc_eqb_spec (a +! p) (bb +! (L - p))) as [K|_]; [exfalso; apply (Dab p (L - p)); auto; lia|].
      destruct (loc_eqb_spec (a +! p) (bb +! p)) as [K|_]; [exfalso; apply (Dab p p); auto; lia|].
      destruct (loc_eqb_spec (a +! p) (x +! p)) as [K|_]; [exfalso; apply (Dxa p p); auto; lia|].
      destruct (loc_eqb_spec (a +! p) (a +! p)); [reflexivity|congruence].
    - destruct (loc_eqb_spec (x +! p) (bb +! (L - p))) as [K|_]; [exfalso; apply (Dxb p (L - p)); auto; lia|].
      destruct (loc_eqb_spec (x +! p) (bb +! p)) as [K|_]; [exfalso; apply (Dxb p p); auto; lia|].
      destruct (loc_eqb_spec (x +! p) (x +! p)); [reflexivity|congruence].
    - destruct (loc_eqb_spec (bb +! p) (bb +! (L - p))) as [K|_]; [reflexivity|].
      destruct (loc_eqb_spec (bb +! p) (bb +! p)); [reflexivity|congruence].
    - destruct (loc_eqb_spec (bb +! (L - p)) (bb +! (L - p))); [reflexivity|congruence]. }
  assert (C23 : CExec (if N <? base_omp
     then [Par [single (for_ (L - 1) (bl_zero a bb) ;;; for_ (N - 1) (bl_chirp iv N L W a bb x))]]
     else [Par [(L - 1, bl_zero a bb); (N - 1, bl_chirp iv N L W a bb x)]]) S0 m1 m3).
  { destruct (N <? base_omp); [eapply (Loop2_s _ _ _ _ _ _ _ _ S0 m1 m2 m3)|eapply (Loop2_p _ _ _ _ _ _ _ _ S0 m1 m2 m3)]; eauto; exact L3. }
  assert (HA3 : holds m3 a L (bl_A iv N T X)).
  { intros p Hp. unfold bl_A. destruct (Nat.eqb_spec p 0) as [->|H0].
    - rewrite F3; [rewrite E2 by auto; exact Va1|]. intros q Hq; repeat split; intros K;
        [apply padd_inj in K; lia|apply (Dxa q 0); auto; lia|apply (Dab 0 q); auto; lia|apply (Dab 0 (L - q)); auto; lia].
    - destruct (Nat.ltb_spec p N) as [Hl|Hl]; [apply W3; lia|].
      rewrite F3; [apply Va2; lia|]. intros q Hq; repeat split; intros K;
        [apply padd_inj in K; lia|apply (Dxa q p); auto; lia|apply (Dab p q); auto; lia|apply (Dab p (L - q)); auto; lia]. }
  assert (Hx3 : holds m3 x N (bl_x iv N T)).
  { intros p Hp. unfold bl_x. destruct (Nat.eqb_spec p 0) as [->|H0].
    - rewrite F3; [rewrite E2 by auto; exact Vx1|]. intros q Hq; repeat split; intros K;
        [apply (Dxa 0 q); auto; lia|apply padd_inj in K; lia|apply (Dxb 0 q); auto; lia|apply (Dxb 0 (L - q)); auto; lia].
    - apply W3. lia. }
  assert (HB3 : holds m3 bb L (bl_B iv N L T)).
  { intros p Hp. unfold bl_B. destruct (Nat.ltb_spec p N) as [Hl|Hl].
    - unfold bl_x. destruct (Nat.eqb_spec p 0) as [->|H0]; [|apply W3; lia].
      rewrite F3; [rewrite E2 by auto; exact Vb1|]. intros q Hq; repeat split; intros K;
        [apply (Dab q 0); auto; lia|apply (Dxb q 0); auto; lia|apply padd_inj in K; lia|apply padd_inj in K; lia].
    - destruct (Nat.ltb_spec (L - p) N) as [Hm|Hm].
      + unfold bl_x. destruct (Nat.eqb_spec (L - p) 0) as [|H0]; [lia|].
        destruct (W3 (L - p)) as (_ & _ & _ & K); [lia|]. replace (L - (L - p)) with p in K by lia. exact K.
      + rewrite F3; [apply Va2; lia|]. intros q Hq; repeat split; intros K;
        [apply (Dab q p); auto; lia|apply (Dxb q p); auto; lia|apply padd_inj in K; lia|apply padd_inj in K; lia]. }
  assert (Hr3 : fft_ready b L m3) by (eapply CExec_ready; [apply fft_ready_local|exact Hr1|exact C23|exact SO]).
  (* the two forward transforms *)
  assert (Oa : ~ fft_own b (fst a)) by (unfold fft_own; cbn; lia).
  assert (Ob : ~ fft_own b (fst bb)) by (unfold fft_own; cbn; lia).
  assert (Dwa : disjR a L (b + 3, 0) L) by (apply disjR_buf; cbn; lia).
  assert (Dwb : disjR bb L (b + 3, 0) L) by (apply disjR_buf; cbn; lia).
  assert (Dwx : disjR x N (b + 3, 0) L) by (apply disjR_buf; cbn; unfold bl_own in Hx; lia).
  assert (RDY : forall p m0 m0' kk, (p = a \/ p = bb) -> fft_ready b L m0 -> CExec (fft_run b L kk p) (xy p (b + 3, 0) L) m0 m0' -> fft_ready b L m0').
  { intros p m0 m0' kk Hp (R1 & R2) HC. split; [|eapply chg_allocd; [apply HC|exact R2]].
    eapply CExec_ready; [apply fft0_ready_local|exact R1|exact HC|]. intros l [Hl|Hl] Ho; apply inR_fst in Hl; rewrite Hl in Ho;
    unfold six_own in Ho; destruct Hp as [-> | ->]; cbn in Ho; lia. }
  destruct (fft_run_ok b L fwd0 a m3 _ HvL Oa Hr3 HA3) as (m4 & C4 & HA4).
  assert (Hr4 : fft_ready b L m4) by (eapply (RDY a); eauto).
  assert (HB4 : holds m4 bb L (bl_B iv N L T)).
  { eapply chg_holds; [apply C4|exact HB3|]. intros l Hl [K|K]; [eapply (disjR_inR a L bb L)|eapply (disjR_inR bb L (b + 3, 0) L)]; eauto. }
  assert (Hx4 : holds m4 x N (bl_x iv N T)).
  { eapply chg_holds; [apply C4|exact Hx3|]. intros l Hl [K|K]; [eapply (disjR_inR x N a L)|eapply (disjR_inR x N (b + 3, 0) L)]; eauto. }
  destruct (fft_run_ok b L fwd0 bb m4 _ HvL Ob Hr4 HB4) as (m5 & C5 & HB5).
  assert (Hr5 : fft_ready b L m5) by (eapply (RDY bb); eauto).
  assert (HA5 : holds m5 a L (fft0_F L fwd0 (bl_A iv N T X))).
  { eapply chg_holds; [apply C5|exact HA4|]. intros l Hl [K|K]; [eapply (disjR_inR a L bb L)|eapply (disjR_inR a L (b + 3, 0) L)]; eauto. }
  assert (Hx5 : holds m5 x N (bl_x iv N T)).
  { eapply chg_holds; [apply C5|exact Hx4|]. intros l Hl [K|K]; [eapply (disjR_inR x N bb L)|eapply (disjR_inR x N (b + 3, 0) L)]; eauto. }
  set (A := fft0_F L fwd0 (bl_A iv N T X)) in *. set (B := fft0_F L fwd0 (bl_B iv N L T)) in *.
  (* product *)
  destruct (iloop L (fun i => [a +! i; bb +! i]) a (fun i => [i]) (fun _ v => match v with [u; w] => [cmul u w] | _ => [] end)
    (fun i => [A i; B i]) m5) as (m6 & L6 & V6).
  { intros i Hi. unfold reads. cbn [map]. rewrite HA5, HB5 by auto. reflexivity. } { reflexivity. }
  { intros i e Hi He. cbn [In] in He. rewrite HA5 by lia. discriminate. }
  { intros i j e Hi Hj Hne He. cbn [In] in *. split; [|lia]. intros [E|[E|[]]]; [apply padd_inj in E; lia|]. apply (Dab e j); auto; lia. }
  apply (omp_loop_C N) in L6. apply (CExec_mono _ _ (inR a L)) in L6; [|intros l (i & e & Hi & He & ->); cbn [In] in He; apply inR_i; lia].
  assert (HA6 : holds m6 a L (fun j => cmul (A j) (B j))).
  { intros p Hp. apply (V6 p p _ Hp). cbn [ilast]. rewrite Nat.eqb_refl. reflexivity. }
  assert (Hx6 : holds m6 x N (bl_x iv N T)).
  { eapply chg_holds; [apply L6|exact Hx5|]. intros l Hl K. eapply (disjR_inR x N a L); eauto. }
  assert (Hr6 : fft_ready b L m6).
  { eapply CExec_ready; [apply fft_ready_local|exact Hr5|exact L6|]. intros l Hl. apply SO. right. left. exact Hl. }
  destruct (fft_run_ok b L invn a m6 _ HvL Oa Hr6 HA6) as (m7 & C7 & HA7).
  assert (Hx7 : holds m7 x N (bl_x iv N T)).
  { eapply chg_holds; [apply C7|exact Hx6|]. intros l Hl [K|K]; [eapply (disjR_inR x N a L)|eapply (disjR_inR x N (b + 3, 0) L)]; eauto. }
  set (Z := fft0_F L invn (fun j => cmul (A j) (B j))) in *.
  destruct (iloop N (fun i => [a +! i; x +! i]) x (fun i => [i]) (fun _ v => match v with [u; w] => [bl_scale N k (cmul u (cconj w))] | _ => [] end)
    (fun i => [Z i; bl_x iv N T i]) m7) as (m8 & L8 & V8).
  { intros i Hi. unfold reads. cbn [map]. rewrite HA7, Hx7 by lia. reflexivity. } { reflexivity. }
  { intros i e Hi He. cbn [In] in He. rewrite Hx7 by lia. discriminate. }
  { intros i j e Hi Hj Hne He. cbn [In] in *. split; [|lia]. intros [E|[E|[]]]; [|apply padd_inj in E; lia]. apply (Dxa e j); auto; lia. }
  apply (omp_loop_C N) in L8. apply (CExec_mono _ _ (inR x N)) in L8; [|intros l (i & e & Hi & He & ->); cbn [In] in He; apply inR_i; lia].
  exists m8. split.
  - assert (X0 : forall l, S0 l -> bl_fp b x N L l) by (intros l [Hl|[Hl|Hl]]; unfold bl_fp; auto).
    assert (Xa : forall l, xy a (b + 3, 0) L l -> bl_fp b x N L l) by (intros l [Hl|Hl]; unfold bl_fp; auto).
    assert (Xb : forall l, xy bb (b + 3, 0) L l -> bl_fp b x N L l) by (intros l [Hl|Hl]; unfold bl_fp; auto).
    assert (Xi : forall l, bl_fp b x N L l -> bl_fp b x N L l) by auto.
    eapply CExec_app; [exact C1| |exact X0|exact Xi].
    eapply CExec_app; [exact C23| |exact X0|exact Xi].
    eapply CExec_app; [exact C4| |exact Xa|exact Xi].
    eapply CExec_app; [exact C5| |exact Xb|exact Xi].
    eapply CExec_app; [exact L6| |intros l Hl; apply X0; right; left; exact Hl|exact Xi].
    eapply CExec_app; [exact C7|exact L8|exact Xa|intros l Hl; apply X0; left; exact Hl].
  - intros p Hp. apply (V8 p p _ Hp). cbn [ilast]. rewrite Nat.eqb_refl. reflexivity.
Qed.

Lemma bl_run_ok b N k x (m : mem) X : bl_length N -> ~ bl_own b (fst x) -> bl_ready b N m -> holds m x N X ->
  exists m', CExec (bl_run b N k x) (fun l => inR x N l \/ b + 3 <= fst l <= b + 5) m m' /\ holds m' x N (bl_F N k X) /\ bl_ready b N m'.
Proof.
  intros HN Hx Hr HX. destruct (bl_pad N HN) as (n & E & _). unfold bl_run, bl_F. rewrite E. set (L := 2 ^ n) in *. clearbody L.
  destruct (bl_pad_valid N L HN E) as (HL & Hv). destruct (Hr L E) as (Hf & (Ha & Hb) & HW).
  destruct (Nat.ltb_spec N 2) as [H2|H2].
  - exists m. unfold bl_run_L. destruct (Nat.ltb_spec N 2); [|lia]. split; [apply CExec_nil|]. auto.
  - destruct (bl_run_L_ok b N L k x m X H2 HL (Hv H2) Hx Hf Ha Hb HW HX) as (m' & HC & HF).
    assert (HC' : CExec (bl_run_L b N L k x) (fun l => inR x N l \/ b + 3 <= fst l <= b + 5) m m').
    { eapply CExec_mono; [|exact HC]. intros l [Hl|[Hl|[Hl|Hl]]]; auto; apply inR_fst in Hl; right; rewrite Hl; cbn; lia. }
    exists m'. split; [exact HC'|]. split; [exact HF|].
    intros L' E'. rewrite E in E'. injection E' as <-. split; [|split; [split|]].
    + destruct Hf as (R1 & R2). split; [|eapply chg_allocd; [apply HC'|exact R2]].
      eapply CExec_ready; [apply fft0_ready_local|exact R1|exact HC'|]. intros l [Hl|Hl] Ho; unfold six_own, bl_own in *; [|lia].
      apply inR_fst in Hl. rewrite Hl in Ho. lia.
    + eapply chg_allocd; [apply HC'|exact Ha].
    + eapply chg_allocd; [apply HC'|exact Hb].
    + eapply chg_holds; [apply HC'|exact HW|]. intros l Hl. apply inR_fst in Hl. intros [K|K]; [|rewrite Hl in K; cbn in K; lia].
      apply inR_fst in K. rewrite Hl in K. apply Hx. rewrite <- K. unfold bl_own. cbn. lia.
Qed.

(** ** the object *)
Section Obj.
Variable b : nat.
Definition bcall : Type := (meth * ptr)%type.
Definition bc_call (N : nat) (a : bcall) : list act := bl_run b N (fst a) (snd a).
Definition bc_pre (N : nat) (m : mem) (a : bcall) : Prop := ~ bl_own b (fst (snd a)) /\ exists X, holds m (snd a) N X.
Definition bc_wr (N : nat) (a : bcall) (l : loc) : Prop := inR (snd a) N l \/ b + 3 <= fst l <= b + 5.
Definition bc_post (N : nat) (a : bcall) (m m' : mem) : Prop :=
  forall X, holds m (snd a) N X -> holds m' (snd a) N (bl_F N (fst a) X).
Definition bc_argb (N : nat) (a : bcall) (l : loc) : bool := inRb (snd a) N l.
Definition bl_ownb (c : nat) : bool := (b <=? c) && (c <=? b + 6).
Lemma bl_ownb_spec c : bl_ownb c = true <-> bl_own b c.
Proof. unfold bl_ownb, bl_own. rewrite andb_true_iff, !Nat.leb_le. tauto. Qed.

Definition bl_history : option nat -> mem -> Prop :=
  ghistory (bl_own b) bl_conf (bl_setup b) bc_call bc_pre.

Lemma bc_run_ok N a m : bl_length N -> bl_ready b N m -> bc_pre N m a ->
  exists m', CExec (bc_call N a) (bc_wr N a) m m' /\ bc_post N a m m' /\ bl_ready b N m'.
Proof.
  destruct a as [k x]. intros HN Hr (Hx & X & HX). unfold bc_call, bc_wr, bc_post in *. cbn [fst snd] in *.
  destruct (bl_run_ok b N k x m X HN Hx Hr HX) as (m' & Hc & Hv & Hr'). exists m'. split; [exact Hc|]. split; [|exact Hr'].
  intros Y HY. destruct (bl_run_ok b N k x m Y HN Hx Hr HY) as (m2 & Hc2 & Hv2 & _).
  intros i Hi. rewrite <- (Hv2 i Hi). destruct Hc as (_ & E1 & _), Hc2 as (_ & E2 & _). rewrite E1 in E2. injection E2 as ->. reflexivity.
Qed.
Lemma bl_run_par N k x : Forall (fun c : act => match c with Par _ => True | New _ _ => False end) (bl_run b N k x).
Proof.
  unfold bl_run, bl_run_L, fft_run, omp_loop. destruct (pad_loop 32 1 (2 * N - 1)) as [L|]; [|constructor]. cbv zeta.
  repeat match goal with
  | |- Forall _ (_ ++ _) => apply Forall_app; split
  | |- Forall _ (fft0_run _ _ _ _ _) => exact (fft0_run_par _ _ _ _ _)
  | |- Forall _ (if ?e then _ else _) => destruct e
  | |- Forall _ (_ :: _) => constructor
  | |- Forall _ [] => constructor
  | |- True => exact I
  end.
Qed.
Lemma bc_arg_ok N a m : bc_pre N m a -> bc_pre N (restrict (fun l => bc_argb N a l || bl_ownb (fst l)) m) a.
Proof.
  destruct a as [k x]. intros (Hx & X & HX). split; [assumption|]. exists X. cbn [fst snd] in *.
  intros i Hi. unfold restrict, bc_argb. cbn [fst snd]. rewrite (proj2 (inRb_spec x N _) (inR_i x N i Hi)). cbn. auto.
Qed.
Lemma bl_setup_news N c n : In (New c n) (bl_setup b N) -> bl_own b c.
Proof.
  unfold bl_setup. cbv zeta. destruct (N <? 1); [intros []|]. destruct (negb (mul_ok 2 N)); [intros [H|[]]; discriminate|].
  destruct (pad_loop 32 1 (2 * N - 1)) as [L|]; [|intros [H|[]]; discriminate].
  intros H. apply in_app_or in H as [H|H].
  - unfold fft_setup in H. apply in_app_or in H as [H|H].
    + apply fft0_setup_news in H. unfold six_own, bl_own in *. lia.
    + destruct H as [[= <- <-]|[]]. unfold bl_own. lia.
  - cbn [app In] in H. unfold bl_own. destruct H as [[= <- <-]|[[= <- <-]|[[= <- <-]|[H|H]]]]; try lia; try discriminate.
    destruct (N <? base_omp_w); destruct H as [H|[]]; discriminate.
Qed.
Lemma bc_conf (o : option nat) n N : bl_conf o n = Some N -> bl_length N -> n = N \/ (o = Some N /\ bl_setup b n = []).
Proof.
  unfold bl_conf, bl_setup. cbv zeta. destruct (n <? 1); [right; auto|]. intros [= ->] _. auto.
Qed.
Lemma bc_conf_v (o : option nat) n : bl_length n -> bl_conf o n = Some n.
Proof. intros (H & _). unfold bl_conf. destruct (Nat.ltb_spec n 1); [lia|reflexivity]. Qed.

Lemma bl_call_ok N k x m X : bl_length N -> bl_history (Some N) m -> ~ bl_own b (fst x) -> holds m x N X ->
  exists m', Outcome (bl_run b N k x) m m' /\ holds m' x N (bl_F N k X) /\
    (forall l, ~ inR x N l -> ~ b + 3 <= fst l <= b + 5 -> m' l = m l) /\ bl_history (Some N) m' /\
    accesses_only (bl_run b N k x) m (fun l => inR x N l \/ bl_own b (fst l)).
Proof.
  intros HN Hh Hx HX.
  assert (Hp : bc_pre N m (k, x)) by (split; [assumption|]; exists X; auto).
  destruct (gcall (bl_own b) bl_conf (bl_setup b) bc_call bc_pre bc_wr bc_post (bl_ready b) bl_length
    (fun N _ => bl_ready_local b N) (bl_setup_ok b) bc_conf bc_run_ok N (k, x) m HN Hh Hp)
    as (m' & H1 & H2 & H3 & H4).
  exists m'. split; [exact H1|]. split; [apply (H2 X HX)|]. split; [|split; [exact H4|]].
  - intros l A B. apply H3. intros [Hl|Hl]; auto.
  - pose proof (gcall_footprint (bl_own b) bl_ownb bl_ownb_spec bl_conf (bl_setup b) bc_call bc_pre bc_wr bc_post bc_argb (bl_ready b) bl_length
      (fun N _ => bl_ready_local b N) (bl_setup_ok b) bc_conf bc_run_ok (fun N a _ => bl_run_par N (fst a) (snd a)) bc_arg_ok N (k, x) m HN Hh Hp) as H.
    intros kk T m1 Hre i l w Hi Hac. destruct (H kk T m1 Hre i l w Hi Hac) as [E|E]; [|auto].
    left. apply inRb_spec in E. exact E.
Qed.
Lemma bl_setup_call N o m : bl_length N -> bl_history o m ->
  exists m', Outcome (bl_setup b N) m m' /\ (forall l, ~ bl_own b (fst l) -> m' l = m l) /\ bl_history (Some N) m' /\
    accesses_only (bl_setup b N) m (fun l => bl_own b (fst l)).
Proof.
  intros HN Hh.
  destruct (gsetup (bl_own b) bl_conf (bl_setup b) bc_call bc_pre (bl_ready b) bl_length (bl_setup_ok b) bc_conf_v N o m HN Hh) as (m' & H1 & H2 & H3).
  exists m'. split; [exact H1|]. split; [exact H2|]. split; [exact H3|].
  exact (gsetup_footprint (bl_own b) bl_ownb bl_ownb_spec (bl_setup b) (bl_ready b) bl_length (bl_setup_ok b) bl_setup_news N m HN).
Qed.
Lemma bl_history_any N mo : bl_length N -> exists m, bl_history (Some N) m /\ forall l, ~ bl_own b (fst l) -> m l = mo l.
Proof.
  intros HN. exact (ghistory_any (bl_own b) bl_ownb bl_ownb_spec bl_conf (bl_setup b) bc_call bc_pre (bl_ready b) bl_length (bl_setup_ok b) bc_conf_v N None (fun _ => Free) mo HN (h_start _ _ _ _ _)).
Qed.
End Obj.
End BlRun.
