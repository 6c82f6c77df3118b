(** * RFFT: what the methods compute, any arithmetic *)

From Coq Require Import List Arith ZArith Bool Lia.
From Verif Require Import Scalar Mem MemFacts Omp OmpFacts Lanes Stage Object ObjectFacts Engine Steps Blocks SixClass
  ModelApi History ApiFacts ModelReal RealFacts.
Import ListNotations.

(** lengths RealFFT supports: even, half of it a length the complex transform supports *)
Definition real_length (N : nat) : Prop := N = 2 * (N / 2) /\ (Z.of_nat N <= 2 ^ 30)%Z /\ valid_length (N / 2).

Lemma omp_s {Op : Ops} N n body R S (m m' : mem C) : Loop n body R S m m' ->
  CExec (if N <? base_omp then [Par [single (for_ n body)]] else [Par [(n, body)]]) S m m'.
Proof. intros H. destruct (N <? base_omp); [eapply Loop_s|eapply Loop_p]; eauto. Qed.
(** one block, as a loop with one iteration *)
Lemma one_block {Op : Ops} rds (x : ptr) es (f : list C -> list C) vs (m : mem C) :
  reads m rds vs -> length (f vs) = length es -> (forall e, In e es -> m (x +! e) <> Free) ->
  exists m', CExec [Par [single (block rds (map (padd x) es) f)]] (fun l => exists e, In e es /\ l = x +! e) m m' /\
    forall e v, ilast es (f vs) e = Some v -> m' (x +! e) = Val v.
Proof.
  intros H1 H2 H3. destruct (iloop 1 (fun _ => rds) x (fun _ => es) (fun _ => f) (fun _ => vs) m) as (m' & HL & Hv); auto.
  - intros i j e Hi Hj Hne. lia.
  - exists m'. split; [|intros e v; apply (Hv 0); lia].
    apply Loop_s in HL. eapply CExec_mono; [|exact HL]. intros l (i & e & _ & He & ->). eauto.
Qed.

Ltac loc_eq E := unfold padd in E; cbn [fst snd] in E; injection E; intros.

Section RealRun.
Context {Op : Ops}.
Notation mem := (mem C).
Notation act := (act C).

(** ** forward *)
Definition rf_z (X : nat -> C) (p : nat) : C := mkC (Re (X (2 * p))) (Re (X (2 * p + 1))).
Definition rf_first (N : nat) (kind : meth) (U Z : nat -> C) (k : nat) : C :=
  let Nh := N / 2 in let a := Z k in let b := cconj (Z (Nh - k)) in let c := cmul (U k) (csub a b) in
  rf_mul N kind (csub a c).
Definition rf_second (N : nat) (kind : meth) (U Z : nat -> C) (k : nat) : C :=
  let Nh := N / 2 in let a := Z k in let b := cconj (Z (Nh - k)) in let c := cmul (U k) (csub a b) in
  rf_mul N kind (cconj (cadd b c)).
Definition rf_half (N : nat) (kind : meth) (U Z : nat -> C) (e : nat) : C :=
  let Nh := N / 2 in
  if Nh - e <=? N / 4 then rf_second N kind U Z (Nh - e) else rf_first N kind U Z e.
Definition rf_out (N : nat) (kind : meth) (U Z : nat -> C) (e : nat) : C :=
  let Nh := N / 2 in
  if e =? 0 then rval (rf_div N kind (sadd (Re (Z 0)) (Im (Z 0))))
  else if e <? Nh then rf_half N kind U Z e
  else if e =? Nh then rval (rf_div N kind (ssub (Re (Z 0)) (Im (Z 0))))
  else cconj (rf_half N kind U Z (N - e)).
Definition rfft_F (N : nat) (kind : meth) (X : nat -> C) : nat -> C :=
  rf_out N kind (U_T N) (fft0_F (N / 2) fwd0 (rf_z X)).

Lemma quarter N h : N = 2 * h -> N / 4 = h / 2 /\ 2 * (N / 4) <= h /\ h <= 2 * (N / 4) + 1.
Proof.
  intros ->. assert (E : 2 * h / 4 = h / 2) by (change 4 with (2 * 2); rewrite Nat.div_mul_cancel_l; lia).
  rewrite E. pose proof (Nat.div_mod h 2 ltac:(lia)). pose proof (Nat.mod_upper_bound h 2 ltac:(lia)). lia.
Qed.

Lemma rfft_fwd_ok b N kind x y (m : mem) X : real_length N -> ~ fft_own b (fst x) -> ~ fft_own b (fst y) -> disjR x N y N ->
  rfft_ready b N m -> holds m x N X -> allocd m (inR y N) ->
  exists m', CExec (rfft_fwd b N kind x y) (inR y N) m m' /\ holds m' y N (rfft_F N kind X).
Proof.
  intros (EN & _ & Hv) Hx Hy Hd (Hr & HU) HX Ha.
  assert (H2 : 2 <= N / 2) by (destruct Hv; auto). set (Nh := N / 2) in *.
  destruct (quarter N Nh EN) as (_ & Q1 & Q2). set (Nq := N / 4) in *.
  specialize (HU ltac:(lia)).
  unfold rfft_fwd. destruct (Nat.ltb_spec N 1); [lia|]. destruct (Nat.eqb_spec N 1); [lia|]. cbv zeta. fold Nh Nq.
  set (z := y +! Nh). set (U := (b + 3, 0) : ptr) in *.
  assert (Hyz : forall l, inR z Nh l -> inR y N l).
  { intros l (i & Hi & ->). unfold z. rewrite padd_padd. apply inR_i. lia. }
  assert (Hyh : forall l, inR y Nh l -> inR y N l).
  { intros l (i & Hi & ->). apply inR_i. lia. }
  assert (HyU : disjR y N U (N + 1)).
  { apply disjR_buf. cbn. unfold fft_own in Hy. lia. }
  assert (HxU : disjR x N U (N + 1)).
  { apply disjR_buf. cbn. unfold fft_own in Hx. lia. }
  (* pack *)
  destruct (iloop Nh (fun p => [x +! (2 * p); x +! (2 * p + 1)]) z (fun p => [p])
    (fun p v => match v with [a; b] => [mkC (Re a) (Re b)] | _ => [] end)
    (fun p => [X (2 * p); X (2 * p + 1)]) m) as (m1 & L1 & V1).
  { intros i Hi. unfold reads. cbn [map]. rewrite !HX by lia. reflexivity. }
  { reflexivity. }
  { intros i e Hi [<-|[]]. apply Ha, Hyz, inR_i. auto. }
  { intros i j e Hi Hj Hne [<-|[]]. split; [|cbn [In]; lia].
    unfold z. rewrite padd_padd. intros [E|[E|[]]]; (eapply Hd; [| |exact E]; lia). }
  apply Loop_s in L1. apply (CExec_mono _ _ (inR z Nh)) in L1; [|intros l (i & e & Hi & [<-|[]] & ->); apply inR_i; auto].
  assert (Z1 : holds m1 z Nh (rf_z X)).
  { intros i Hi. apply (V1 i i); auto. cbn. rewrite Nat.eqb_refl. reflexivity. }
  assert (C1 : chg (inR z Nh) m m1) by apply L1.
  (* transform *)
  assert (Hr1 : fft0_ready b Nh m1).
  { eapply CExec_ready; [apply fft0_ready_local|exact Hr|exact L1|]. intros l Hl Ho. apply inR_fst in Hl.
    apply Hy, six_fft_own. cbn in Hl. rewrite <- Hl. exact Ho. }
  destruct (fft0_run_ok b Nh fwd0 Hv z y m1 (rf_z X)) as (m2 & L2 & Z2); auto.
  { intros Ho. apply Hy, six_fft_own. exact Ho. }
  { intros Ho. apply Hy, six_fft_own. exact Ho. }
  { unfold z. intros i j Hi Hj E. rewrite padd_padd in E. apply padd_inj in E. lia. }
  { intros l Hl. eapply chg_allocd; [exact C1|exact Ha|]. auto. }
  set (Z := fft0_F Nh fwd0 (rf_z X)) in *.
  apply (CExec_mono _ _ (inR y N)) in L1; [|auto].
  apply (CExec_mono _ _ (inR y N)) in L2; [|intros l [H'|H']; auto].
  assert (C2 : chg (inR y N) m1 m2) by apply L2.
  assert (A2 : allocd m2 (inR y N)).
  { eapply chg_allocd; [exact C2|]. eapply chg_allocd; [apply L1|exact Ha]. }
  assert (U2 : holds m2 U (N + 1) (U_T N)).
  { eapply chg_holds; [exact C2| |]. eapply chg_holds; [apply L1|exact HU|].
    all: intros l Hl; eapply disjR_inR; [apply disjR_sym; exact HyU|exact Hl]. }
  (* y[0] *)
  destruct (one_block [z +! 0] y [0] (fun v => match v with [a] => [rval (rf_div N kind (sadd (Re a) (Im a)))] | _ => [] end) [Z 0] m2) as (m3 & L3 & V3).
  { unfold reads. cbn [map]. rewrite Z2 by lia. reflexivity. }
  { reflexivity. }
  { intros e [<-|[]]. apply A2, inR_i. lia. }
  specialize (V3 0 _ eq_refl).
  assert (C3 : chg (fun l => l = y +! 0) m2 m3).
  { eapply chg_mono; [|apply L3]. intros l (e & [<-|[]] & ->). auto. }
  apply (CExec_mono _ _ (inR y N)) in L3; [|intros l (e & [<-|[]] & ->); apply inR_i; lia].
  assert (Z3 : holds m3 z Nh Z).
  { eapply chg_holds; [exact C3|exact Z2|]. intros l (i & Hi & ->) E. unfold z in E. rewrite padd_padd in E. apply padd_inj in E. lia. }
  (* z[0] *)
  destruct (one_block [z +! 0] z [0] (fun v => match v with [a] => [rval (rf_div N kind (ssub (Re a) (Im a)))] | _ => [] end) [Z 0] m3) as (m4 & L4 & V4).
  { unfold reads. cbn [map]. rewrite Z3 by lia. reflexivity. }
  { reflexivity. }
  { intros e [<-|[]]. rewrite Z3 by lia. discriminate. }
  specialize (V4 0 _ eq_refl).
  assert (C4 : chg (fun l => l = z +! 0) m3 m4).
  { eapply chg_mono; [|apply L4]. intros l (e & [<-|[]] & ->). auto. }
  apply (CExec_mono _ _ (inR y N)) in L4; [|intros l (e & [<-|[]] & ->); apply Hyz, inR_i; lia].
  assert (Z4 : forall k, 0 < k -> k < Nh -> m4 (z +! k) = Val (Z k)).
  { intros k Hk Hk'. rewrite (proj1 C4); [apply Z3; auto|]. intros E. apply padd_inj in E. lia. }
  assert (A4 : allocd m4 (inR y N)).
  { eapply chg_allocd; [exact C4|]. eapply chg_allocd; [exact C3|]. auto. }
  assert (U4 : holds m4 U (N + 1) (U_T N)).
  { eapply chg_holds; [apply L4| |]. eapply chg_holds; [apply L3|exact U2|].
    all: intros l Hl; eapply disjR_inR; [apply disjR_sym; exact HyU|exact Hl]. }
  (* split *)
  destruct (iloop Nq (fun i => [z +! (i + 1); z +! (Nh - (i + 1)); U +! (i + 1)]) y (fun i => [i + 1; Nh - (i + 1)])
    (fun i v => match v with
      | [zk; zl; u] =>
          let a := zk in let b := cconj zl in let c := cmul u (csub a b) in
          [rf_mul N kind (csub a c); rf_mul N kind (cconj (cadd b c))]
      | _ => [] end)
    (fun i => [Z (i + 1); Z (Nh - (i + 1)); U_T N (i + 1)]) m4) as (m5 & L5 & V5).
  { intros i Hi. unfold reads. cbn [map]. rewrite !Z4, U4 by lia. reflexivity. }
  { reflexivity. }
  { intros i e Hi He. apply A4, inR_i. cbn [In] in He. lia. }
  { intros i j e Hi Hj Hne He. cbn [In] in He. split; [|cbn [In]; lia].
    unfold z. rewrite !padd_padd. intros [E|[E|[E|[]]]].
    - apply padd_inj in E. lia.
    - apply padd_inj in E. lia.
    - apply (HyU e (j + 1)); auto; lia. }
  assert (H5 : forall e, 0 < e -> e < Nh -> m5 (y +! e) = Val (rf_half N kind (U_T N) Z e)).
  { intros e He He'. unfold rf_half. fold Nh Nq. destruct (Nat.leb_spec (Nh - e) Nq) as [Hl|Hl].
    - apply (V5 (Nh - e - 1) e); [lia|]. replace (Nh - e - 1 + 1) with (Nh - e) by lia. replace (Nh - (Nh - e)) with e by lia.
      cbn [ilast]. rewrite Nat.eqb_refl. unfold rf_second. fold Nh. cbv zeta. replace (Nh - (Nh - e)) with e by lia. reflexivity.
    - apply (V5 (e - 1) e); [lia|]. replace (e - 1 + 1) with e by lia. cbn [ilast].
      destruct (Nat.eqb_spec e (Nh - e)); [lia|]. rewrite Nat.eqb_refl. reflexivity. }
  assert (S5 : forall l, (exists i e, i < Nq /\ In e [i + 1; Nh - (i + 1)] /\ l = y +! e) -> exists e, 0 < e < Nh /\ l = y +! e).
  { intros l (i & e & Hi & He & ->). exists e. split; auto. cbn [In] in He. lia. }
  pose proof (Loop_chg _ _ _ _ _ _ L5) as C5. apply (chg_mono _ _ _ _ S5) in C5.
  (* mirror *)
  destruct (iloop (Nh - 1) (fun i => [y +! (i + 1)]) y (fun i => [N - (i + 1)])
    (fun i v => match v with [a] => [cconj a] | _ => [] end)
    (fun i => [rf_half N kind (U_T N) Z (i + 1)]) m5) as (m6 & L6 & V6).
  { intros i Hi. unfold reads. cbn [map]. rewrite H5 by lia. reflexivity. }
  { reflexivity. }
  { intros i e Hi He. eapply (chg_allocd _ _ _ _ C5 A4). apply inR_i. cbn [In] in He. lia. }
  { intros i j e Hi Hj Hne [<-|[]]. split; [|cbn [In]; lia]. intros [E|[]]. apply padd_inj in E. lia. }
  assert (S6 : forall l, (exists i e, i < Nh - 1 /\ In e [N - (i + 1)] /\ l = y +! e) -> exists e, Nh < e < N /\ l = y +! e).
  { intros l (i & e & Hi & [<-|[]] & ->). exists (N - (i + 1)). split; auto. lia. }
  pose proof (Loop_chg _ _ _ _ _ _ L6) as C6. apply (chg_mono _ _ _ _ S6) in C6.
  exists m6. split.
  - eapply (CExec_app _ _ (inR y N) (inR y N)); [exact L1| |auto|auto].
    eapply (CExec_app _ _ (inR y N) (inR y N)); [exact L2| |auto|auto].
    eapply (CExec_app [_] [_; _] (inR y N) (inR y N)); [exact L3| |auto|auto].
    eapply (CExec_app [_] [_] (inR y N) (inR y N)); [exact L4| |auto|auto].
    assert (K1 : forall l, (exists i e, i < Nq /\ In e [i + 1; Nh - (i + 1)] /\ l = y +! e) -> inR y N l).
    { intros l Hl. destruct (S5 l Hl) as (e & He & ->). apply inR_i. lia. }
    assert (K2 : forall l, (exists i e, i < Nh - 1 /\ In e [N - (i + 1)] /\ l = y +! e) -> inR y N l).
    { intros l Hl. destruct (S6 l Hl) as (e & He & ->). apply inR_i. lia. }
    destruct (N <? base_omp); [eapply Loop2_s|eapply Loop2_p]; try exact L5; try exact L6; auto.
  - intros e He. unfold rfft_F, rf_out. fold Nh. fold Z.
    assert (F6 : e <= Nh -> m6 (y +! e) = m5 (y +! e)).
    { intros Hle. apply C6. intros (e' & He' & E). apply padd_inj in E. lia. }
    assert (F5 : e = 0 \/ e = Nh -> m5 (y +! e) = m4 (y +! e)).
    { intros Hle. apply C5. intros (e' & He' & E). apply padd_inj in E. lia. }
    destruct (Nat.eqb_spec e 0) as [->|H0].
    + rewrite F6, F5 by lia. rewrite (proj1 C4); [exact V3|]. unfold z. rewrite padd_padd. intros E. apply padd_inj in E. lia.
    + destruct (Nat.ltb_spec e Nh) as [Hl|Hl]; [rewrite F6 by lia; apply H5; lia|].
      destruct (Nat.eqb_spec e Nh) as [->|Hn].
      * rewrite F6, F5 by lia. unfold z in V4. rewrite padd_padd, Nat.add_0_r in V4. exact V4.
      * apply (V6 (N - e - 1) e); [lia|]. replace (N - (N - e - 1 + 1)) with e by lia. replace (N - e - 1 + 1) with (N - e) by lia.
        cbn [ilast]. rewrite Nat.eqb_refl. reflexivity.
Qed.

(** ** inverse *)
Definition ri_z (N : nat) (kind : meth) (U X : nat -> C) (k : nat) : C :=
  let Nh := N / 2 in let a := cconj (X k) in let b := csub a (X (Nh - k)) in let c := cmul (U k) b in
  ri_mul N kind (cconj (csub a c)).
Definition ri_kind (kind : meth) : meth := match kind with invn => invn | _ => inv0 end.
Definition ri_out (Z : nat -> C) (e : nat) : C := rval (if Nat.even e then Re (Z (e / 2)) else Im (Z (e / 2))).
Definition rfft_G (N : nat) (kind : meth) (X : nat -> C) : nat -> C :=
  ri_out (fft0_F (N / 2) (ri_kind kind) (ri_z N kind (U_T N) X)).

(** only x[0] .. x[N/2] need be initialised; the rest of x is work area *)
Lemma rfft_inv_ok b N kind x y (m : mem) X : real_length N -> ~ fft_own b (fst x) -> ~ fft_own b (fst y) -> disjR x N y N ->
  rfft_ready b N m -> holds m x (N / 2 + 1) X -> allocd m (inR x N) -> allocd m (inR y N) ->
  exists m', CExec (rfft_inv b N kind x y) (xy x y N) m m' /\ holds m' y N (rfft_G N kind X).
Proof.
  intros (EN & _ & Hv) Hx Hy Hd (Hr & HU) HX Hax Ha.
  assert (H2 : 2 <= N / 2) by (destruct Hv; auto). set (Nh := N / 2) in *.
  specialize (HU ltac:(lia)).
  unfold rfft_inv. destruct (Nat.ltb_spec N 1); [lia|]. destruct (Nat.eqb_spec N 1); [lia|]. cbv zeta. fold Nh.
  set (z := x +! Nh). set (U := (b + 3, 0) : ptr) in *.
  assert (Hxz : forall l, inR z Nh l -> inR x N l).
  { intros l (i & Hi & ->). unfold z. rewrite padd_padd. apply inR_i. lia. }
  assert (Hxh : forall l, inR x Nh l -> inR x N l).
  { intros l (i & Hi & ->). apply inR_i. lia. }
  assert (HxU : disjR x N U (N + 1)).
  { apply disjR_buf. cbn. unfold fft_own in Hx. lia. }
  (* the reads include x[Nh] = z[0] in iteration 0, which iteration 0 also writes *)
  destruct (iloop Nh (fun k => [x +! k; x +! (Nh - k); U +! k]) z (fun k => [k])
    (fun k v => match v with
      | [xk; xl; u] =>
          let a := cconj xk in let b := csub a xl in let c := cmul u b in
          [ri_mul N kind (cconj (csub a c))]
      | _ => [] end)
    (fun k => [X k; X (Nh - k); U_T N k]) m) as (m1 & L1 & V1).
  { intros i Hi. unfold reads. cbn [map]. rewrite !HX, HU by lia. reflexivity. }
  { reflexivity. }
  { intros i e Hi [<-|[]]. unfold z. rewrite padd_padd. apply Hax, inR_i. lia. }
  { intros i j e Hi Hj Hne [<-|[]]. split; [|cbn [In]; lia].
    unfold z. rewrite padd_padd. intros [E|[E|[E|[]]]].
    - apply padd_inj in E. lia.
    - apply padd_inj in E. lia.
    - apply (HxU (Nh + i) j); auto; lia. }
  apply (omp_s N) in L1. apply (CExec_mono _ _ (inR z Nh)) in L1; [|intros l (i & e & Hi & [<-|[]] & ->); apply inR_i; auto].
  assert (Z1 : holds m1 z Nh (ri_z N kind (U_T N) X)).
  { intros i Hi. apply (V1 i i); auto. cbn [ilast]. rewrite Nat.eqb_refl. reflexivity. }
  assert (C1 : chg (inR z Nh) m m1) by apply L1.
  assert (Hr1 : fft0_ready b Nh m1).
  { eapply CExec_ready; [apply fft0_ready_local|exact Hr|exact L1|]. intros l Hl Ho. apply inR_fst in Hl.
    apply Hx, six_fft_own. cbn in Hl. rewrite <- Hl. exact Ho. }
  destruct (fft0_run_ok b Nh (ri_kind kind) Hv z x m1 (ri_z N kind (U_T N) X)) as (m2 & L2 & Z2); auto.
  { intros Ho. apply Hx, six_fft_own. exact Ho. }
  { intros Ho. apply Hx, six_fft_own. exact Ho. }
  { unfold z. intros i j Hi Hj E. rewrite padd_padd in E. apply padd_inj in E. lia. }
  { intros l Hl. eapply chg_allocd; [exact C1|exact Hax|]. auto. }
  set (Z := fft0_F Nh (ri_kind kind) (ri_z N kind (U_T N) X)) in *.
  apply (CExec_mono _ _ (inR x N)) in L1; [|auto].
  apply (CExec_mono _ _ (inR x N)) in L2; [|intros l [H'|H']; auto].
  assert (A2 : allocd m2 (inR y N)).
  { eapply chg_allocd; [apply L2|]. eapply chg_allocd; [apply L1|exact Ha]. }
  (* unpack *)
  destruct (iloop Nh (fun p => [z +! p]) y (fun p => [2 * p; 2 * p + 1])
    (fun p v => match v with [a] => [rval (Re a); rval (Im a)] | _ => [] end)
    (fun p => [Z p]) m2) as (m3 & L3 & V3).
  { intros i Hi. unfold reads. cbn [map]. rewrite Z2 by lia. reflexivity. }
  { reflexivity. }
  { intros i e Hi He. apply A2, inR_i. cbn [In] in He. lia. }
  { intros i j e Hi Hj Hne He. cbn [In] in He. split; [|cbn [In]; lia].
    unfold z. rewrite padd_padd. intros [E|[]]. apply (Hd (Nh + j) e); auto; lia. }
  apply (omp_s N) in L3. apply (CExec_mono _ _ (inR y N)) in L3; [|intros l (i & e & Hi & He & ->); apply inR_i; cbn [In] in He; lia].
  exists m3. split.
  - eapply (CExec_app _ _ (inR x N) (xy x y N)); [exact L1| |intros l Hl; left; auto|auto].
    eapply (CExec_app _ _ (inR x N) (inR y N)); [|exact L3|intros l Hl; left; auto|intros l Hl; right; auto].
    destruct kind; exact L2.
  - intros e He. unfold rfft_G, ri_out. fold Nh. fold Z.
    pose proof (Nat.div_mod e 2 ltac:(lia)) as Hdm. pose proof (Nat.mod_upper_bound e 2 ltac:(lia)) as Hmu.
    apply (V3 (e / 2) e); [lia|]. cbn [ilast].
    destruct (Nat.even e) eqn:Ee.
    + apply Nat.even_spec in Ee as (h & Eh). replace (e / 2) with h by (rewrite (div_2_eq e h Eh); auto).
      destruct (Nat.eqb_spec e (2 * h + 1)); [lia|]. destruct (Nat.eqb_spec e (2 * h)); [reflexivity|lia].
    + assert (Eo : Nat.odd e = true) by (rewrite <- Nat.negb_even, Ee; auto). apply Nat.odd_spec in Eo as (h & Eh).
      destruct (Nat.eqb_spec e (2 * (e / 2) + 1)); [reflexivity|]. exfalso. lia.
Qed.

End RealRun.
