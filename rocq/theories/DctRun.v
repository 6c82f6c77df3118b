(** * DCT0 and DCT: tables, setup and methods, any arithmetic *)

From Coq Require Import List Arith ZArith Bool Lia.
From Verif Require Import Scalar Mem MemFacts Omp OmpFacts Lanes Stage Object ObjectFacts Engine Steps Blocks SixClass
  ModelApi History ApiFacts Footprint ComplexThms GObj ModelReal RealFacts RealRun RealObj.
Import ListNotations.

(** lengths RealDCT supports: those of RealFFT for which 2*N is representable *)
Definition dct_length (N : nat) : Prop := real_length N /\ mul_ok 2 N = true.

Section DctRun.
Context {Op : Ops}.
Notation mem := (mem C).
Notation act := (act C).

(** ** the table *)
Definition V_es (N p : nat) : list nat := [p; N - p].
Definition V_us (N p : nat) : list C :=
  let theta := smul (sn p) (sdiv spi (sn (2 * N))) in [mkC (scos theta) (ssin theta); mkC (ssin theta) (scos theta)].
Definition V_it (N e : nat) : nat := Nat.min e (N - e).
Definition V_T (N : nat) : nat -> C := tval (V_es N) (V_us N) (V_it N) c0.
Lemma V_cov N e : 0 < N -> e < N + 1 -> V_it N e < N / 2 + 1 /\ In e (V_es N (V_it N e)).
Proof.
  intros HN He. unfold V_it, V_es. pose proof (Nat.div_mod N 2 ltac:(lia)). pose proof (Nat.mod_upper_bound N 2 ltac:(lia)). cbn [In]. split; lia.
Qed.

Lemma dct0_table_ok N (U : ptr) (m : mem) : 2 <= N -> allocd m (inR U (N + 1)) ->
  exists m', CExec (if N <? base_omp_w then [Par [single (for_ (N / 2 + 1) (V_body N U))]] else [Par [(N / 2 + 1, V_body N U)]]) (inR U (N + 1)) m m' /\ holds m' U (N + 1) (V_T N).
Proof.
  intros HN Ha.
  pose proof (Nat.div_mod N 2 ltac:(lia)). pose proof (Nat.mod_upper_bound N 2 ltac:(lia)).
  destruct (table_loop (N / 2 + 1) U (V_es N) (V_us N) (V_it N) c0 (N + 1) m) as (m' & HL & Hv); auto.
  - intros i e Hi He. unfold V_es in He. cbn [In] in He. lia.
  - intros i j e Hi Hj Hne. unfold V_es. cbn [In]. lia.
  - intros e He. apply V_cov; lia.
  - exists m'. split; [|exact Hv]. destruct (N <? base_omp_w); [apply Loop_s in HL|apply Loop_p in HL]; exact HL.
Qed.

(** ** setup *)
Definition dct0_own (b c : nat) : Prop := b <= c <= b + 4.
Definition dct0_ready (b N : nat) (m : mem) : Prop :=
  rfft_ready b N m /\ (2 <= N -> holds m (b + 4, 0) (N + 1) (V_T N)).
Lemma fft_dct0_own b c : fft_own b c -> dct0_own b c.
Proof. unfold fft_own, dct0_own. lia. Qed.
Lemma dct0_ready_local b N : Local (dct0_own b) (dct0_ready b N).
Proof.
  apply Local_and.
  - eapply Local_sub; [|apply rfft_ready_local]. apply fft_dct0_own.
  - apply Local_imp. intros _. apply holds_own_local. unfold dct0_own. cbn. lia.
Qed.
Lemma dct0_setup_ok b N : mul_ok 2 N = true -> SetsUp (dct0_own b) (dct0_setup b N) (dct0_ready b N).
Proof.
  intros Hm. unfold dct0_setup, dct0_ready. rewrite Hm. cbn [negb]. eapply (SetsUp_two (fft_own b) (eq (b + 4))).
  - apply rfft_setup_ok.
  - apply SetsUp_newc. intros m Ha. destruct (Nat.ltb_spec N 2) as [H|H].
    + exists m. split; [apply CExec_nil|lia].
    + destruct (dct0_table_ok N (b + 4, 0) m) as (m' & H1 & H2); [lia|auto|]. exists m'. auto.
  - apply rfft_ready_local.
  - unfold fft_own. lia.
  - apply fft_dct0_own.
  - intros c <-. unfold dct0_own. lia.
Qed.

Definition dct_own (b c : nat) : Prop := b <= c <= b + 6.
Definition dct_ready (b N : nat) (m : mem) : Prop :=
  dct0_ready b N m /\ (allocd m (inR (b + 5, 0) N) /\ allocd m (inR (b + 6, 0) N)).
Lemma dct_ready_local b N : Local (dct_own b) (dct_ready b N).
Proof.
  apply Local_and; [|apply Local_and].
  - eapply Local_sub; [|apply dct0_ready_local]. unfold dct0_own, dct_own. intros; lia.
  - apply allocd_own_local. unfold dct_own. lia.
  - apply allocd_own_local. unfold dct_own. lia.
Qed.
Lemma dct_setup_ok b N : mul_ok 2 N = true -> SetsUp (dct_own b) (dct_setup b N) (dct_ready b N).
Proof.
  intros Hm. unfold dct_setup, dct_ready. eapply (SetsUp_two (dct0_own b) (fun c => b + 5 <= c <= b + 6)).
  - apply dct0_setup_ok. auto.
  - apply (SetsUp_two (eq (b + 5)) (eq (b + 6)) _ [New (b + 5) N] [New (b + 6) N]).
    + apply SetsUp_alloc.
    + apply SetsUp_alloc.
    + apply allocd_own_local. auto.
    + intros c <-. lia.
    + intros c <-. lia.
    + intros c <-. lia.
  - apply dct0_ready_local.
  - unfold dct0_own. lia.
  - unfold dct0_own, dct_own. lia.
  - unfold dct_own. lia.
Qed.

Lemma omp_loop_C N n body R S (m m' : mem) : Loop n body R S m m' -> CExec (omp_loop N n body) S m m'.
Proof. intros H. unfold omp_loop. destruct (N <? base_omp); [eapply Loop_s|eapply Loop_p]; eauto. Qed.

(** ** forward *)
Definition df_in (N : nat) (X : nat -> C) (e : nat) : C := if e <? N / 2 then X (2 * e) else X (2 * (N - 1 - e) + 1).
Definition df_out (V Z : nat -> C) (e : nat) : C := rval (sadd (smul (Re (V e)) (Re (Z e))) (smul (Im (V e)) (Im (Z e)))).
Definition dct_F (N : nat) (kind : meth) (X : nat -> C) : nat -> C := df_out (V_T N) (rfft_F N kind (df_in N X)).

Definition xyz (x y z : ptr) (N : nat) (l : loc) : Prop := inR x N l \/ inR y N l \/ inR z N l.

Lemma dct0_fwd_ok b N kind x y z (m : mem) X : dct_length N ->
  ~ dct0_own b (fst x) -> ~ dct0_own b (fst y) -> ~ dct0_own b (fst z) ->
  disjR x N y N -> disjR x N z N -> disjR y N z N ->
  dct0_ready b N m -> holds m x N X -> allocd m (inR y N) -> allocd m (inR z N) ->
  exists m', CExec (dct0_fwd b N kind x y z) (xyz x y z N) m m' /\ holds m' x N (dct_F N kind X).
Proof.
  intros (HR & Hm) Hx Hy Hz Dxy Dxz Dyz (Hr & HV) HX Hay Haz.
  assert (EN : N = 2 * (N / 2)) by apply HR. assert (H2 : 2 <= N / 2) by apply HR. remember (N / 2) as h eqn:Eh.
  specialize (HV ltac:(lia)).
  unfold dct0_fwd. destruct (Nat.ltb_spec N 2); [lia|]. rewrite <- Eh.
  assert (Eh1 : (N + 1) / 2 = h) by (rewrite EN; replace (2 * h + 1) with (1 + h * 2) by lia; rewrite Nat.div_add by lia; reflexivity).
  rewrite Eh1. set (V := (b + 4, 0) : ptr) in *.
  assert (HxV : disjR x N V (N + 1)) by (apply disjR_buf; cbn; unfold dct0_own in Hx; lia).
  assert (HyV : disjR y N V (N + 1)) by (apply disjR_buf; cbn; unfold dct0_own in Hy; lia).
  assert (HzV : disjR z N V (N + 1)) by (apply disjR_buf; cbn; unfold dct0_own in Hz; lia).
  (* permutation *)
  destruct (iloop h (fun p => [x +! (2 * p); x +! (2 * p + 1)]) y (fun p => [p; N - p - 1])
    (fun p v => match v with [a; b] => [a; b] | _ => [] end)
    (fun p => [X (2 * p); X (2 * p + 1)]) m) as (m1 & L1 & V1).
  { intros i Hi. unfold reads. cbn [map]. rewrite !HX by lia. reflexivity. }
  { reflexivity. }
  { intros i e Hi He. apply Hay, inR_i. cbn [In] in He. lia. }
  { intros i j e Hi Hj Hne He. cbn [In] in He. split; [|cbn [In]; lia].
    intros [E|[E|[]]]; (eapply Dxy; [| |exact E]; lia). }
  apply (omp_loop_C N) in L1. apply (CExec_mono _ _ (inR y N)) in L1; [|intros l (i & e & Hi & He & ->); apply inR_i; cbn [In] in He; lia].
  assert (Y1 : holds m1 y N (df_in N X)).
  { intros e He. unfold df_in. rewrite <- Eh. destruct (Nat.ltb_spec e h) as [Hl|Hl].
    - apply (V1 e e); [lia|]. cbn [ilast]. destruct (Nat.eqb_spec e (N - e - 1)); [lia|]. rewrite Nat.eqb_refl. reflexivity.
    - apply (V1 (N - 1 - e) e); [lia|]. cbn [ilast]. destruct (Nat.eqb_spec e (N - (N - 1 - e) - 1)); [reflexivity|lia]. }
  assert (C1 : chg (inR y N) m m1) by apply L1.
  assert (O1 : forall l, inR y N l -> ~ fft_own b (fst l)).
  { intros l Hl Ho. apply inR_fst in Hl. apply Hy, fft_dct0_own. rewrite <- Hl. auto. }
  assert (Hr1 : rfft_ready b N m1).
  { eapply CExec_ready; [apply rfft_ready_local|exact Hr|exact L1|exact O1]. }
  destruct (rfft_fwd_ok b N kind y z m1 (df_in N X)) as (m2 & L2 & Z2); auto.
  { intros Ho. apply Hy, fft_dct0_own, Ho. }
  { intros Ho. apply Hz, fft_dct0_own, Ho. }
  { eapply chg_allocd; eauto. }
  assert (V2 : holds m2 V (N + 1) (V_T N)).
  { eapply chg_holds; [apply L2| |]. eapply chg_holds; [apply L1|exact HV|].
    all: intros l Hl; eapply disjR_inR; [apply disjR_sym|exact Hl]; assumption. }
  assert (A2 : allocd m2 (inR x N)).
  { eapply chg_allocd; [apply L2|]. eapply chg_allocd; [exact C1|]. eapply holds_allocd; exact HX. }
  set (Z := rfft_F N kind (df_in N X)) in *.
  destruct (iloop h (fun q => [V +! (2 * q); z +! (2 * q); V +! (2 * q + 1); z +! (2 * q + 1)]) x (fun q => [2 * q; 2 * q + 1])
    (fun q v => match v with
      | [va; za; vb; zb] => [rval (sadd (smul (Re va) (Re za)) (smul (Im va) (Im za))); rval (sadd (smul (Re vb) (Re zb)) (smul (Im vb) (Im zb)))]
      | _ => [] end)
    (fun q => [V_T N (2 * q); Z (2 * q); V_T N (2 * q + 1); Z (2 * q + 1)]) m2) as (m3 & L3 & V3).
  { intros i Hi. unfold reads. cbn [map]. rewrite !V2, !Z2 by lia. reflexivity. }
  { reflexivity. }
  { intros i e Hi He. apply A2, inR_i. cbn [In] in He. lia. }
  { intros i j e Hi Hj Hne He. cbn [In] in He. split; [|cbn [In]; lia].
    intros [E|[E|[E|[E|[]]]]].
    - apply (HxV e (2 * j)); auto; lia.
    - apply (Dxz e (2 * j)); auto; lia.
    - apply (HxV e (2 * j + 1)); auto; lia.
    - apply (Dxz e (2 * j + 1)); auto; lia. }
  apply (omp_loop_C N) in L3. apply (CExec_mono _ _ (inR x N)) in L3; [|intros l (i & e & Hi & He & ->); apply inR_i; cbn [In] in He; lia].
  exists m3. split.
  - eapply (CExec_app _ _ (inR y N) (xyz x y z N)); [exact L1| |intros l Hl; right; auto|auto].
    eapply (CExec_app _ _ (inR z N) (inR x N)); [exact L2|exact L3|intros l Hl; right; auto|intros l Hl; left; auto].
  - intros e He. unfold dct_F, df_out. fold Z.
    pose proof (Nat.div_mod e 2 ltac:(lia)) as Hdm. pose proof (Nat.mod_upper_bound e 2 ltac:(lia)) as Hmu.
    apply (V3 (e / 2) e); [lia|]. cbn [ilast].
    destruct (Nat.eqb_spec e (2 * (e / 2) + 1)) as [E|E].
    + rewrite <- E. reflexivity.
    + destruct (Nat.eqb_spec e (2 * (e / 2))) as [E'|E']; [rewrite <- E'; reflexivity|lia].
Qed.

(** ** inverse *)
Definition di_in (N : nat) (V X : nat -> C) (k : nat) : C :=
  if k =? 0 then rval (Re (X 0)) else cmulT (V k) (mkC (Re (X k)) (sneg (Re (X (N - k))))).
Definition di_out (N : nat) (Q : nat -> C) (e : nat) : C := if Nat.even e then Q (e / 2) else Q (N - 1 - e / 2).
Definition dct_G (N : nat) (kind : meth) (X : nat -> C) : nat -> C := di_out N (rfft_G N kind (di_in N (V_T N) X)).

Lemma dct0_inv_ok b N kind x y z (m : mem) X : dct_length N ->
  ~ dct0_own b (fst x) -> ~ dct0_own b (fst y) -> ~ dct0_own b (fst z) ->
  disjR x N y N -> disjR x N z N -> disjR y N z N ->
  dct0_ready b N m -> holds m x N X -> allocd m (inR y N) -> allocd m (inR z N) ->
  exists m', CExec (dct0_inv b N kind x y z) (xyz x y z N) m m' /\ holds m' x N (dct_G N kind X).
Proof.
  intros (HR & Hm) Hx Hy Hz Dxy Dxz Dyz (Hr & HV) HX Hay Haz.
  assert (EN : N = 2 * (N / 2)) by apply HR. assert (H2 : 2 <= N / 2) by apply HR. remember (N / 2) as h eqn:Eh.
  specialize (HV ltac:(lia)).
  unfold dct0_inv. destruct (Nat.ltb_spec N 2); [lia|]. rewrite <- Eh.
  set (V := (b + 4, 0) : ptr) in *.
  assert (HxV : disjR x N V (N + 1)) by (apply disjR_buf; cbn; unfold dct0_own in Hx; lia).
  assert (HyV : disjR y N V (N + 1)) by (apply disjR_buf; cbn; unfold dct0_own in Hy; lia).
  assert (HzV : disjR z N V (N + 1)) by (apply disjR_buf; cbn; unfold dct0_own in Hz; lia).
  (* z[0] *)
  destruct (one_block [x +! 0] z [0] (fun v => match v with [a] => [rval (Re a)] | _ => [] end) [X 0] m) as (m0 & L0 & V0).
  { unfold reads. cbn [map]. rewrite HX by lia. reflexivity. }
  { reflexivity. }
  { intros e [<-|[]]. apply Haz, inR_i. lia. }
  specialize (V0 0 _ eq_refl).
  apply (CExec_mono _ _ (inR z N)) in L0; [|intros l (e & [<-|[]] & ->); apply inR_i; lia].
  assert (X0 : holds m0 x N X).
  { eapply chg_holds; [apply L0|exact HX|]. intros l Hl. eapply disjR_inR; [exact Dxz|exact Hl]. }
  assert (VV0 : holds m0 V (N + 1) (V_T N)).
  { eapply chg_holds; [apply L0|exact HV|]. intros l Hl. eapply disjR_inR; [apply disjR_sym; exact HzV|exact Hl]. }
  assert (A0 : allocd m0 (inR z N)) by (eapply chg_allocd; [apply L0|exact Haz]).
  (* rotation *)
  destruct (iloop (N - 1) (fun i => [V +! (i + 1); x +! (i + 1); x +! (N - (i + 1))]) z (fun i => [i + 1])
    (fun i v => match v with [w; a; b] => [cmulT w (mkC (Re a) (sneg (Re b)))] | _ => [] end)
    (fun i => [V_T N (i + 1); X (i + 1); X (N - (i + 1))]) m0) as (m1 & L1 & V1).
  { intros i Hi. unfold reads. cbn [map]. rewrite VV0, !X0 by lia. reflexivity. }
  { reflexivity. }
  { intros i e Hi [<-|[]]. apply A0, inR_i. lia. }
  { intros i j e Hi Hj Hne [<-|[]]. split; [|cbn [In]; lia].
    intros [E|[E|[E|[]]]].
    - apply (HzV (i + 1) (j + 1)); auto; lia.
    - eapply Dxz; [| |exact E]; lia.
    - eapply Dxz; [| |exact E]; lia. }
  pose proof (Loop_chg _ _ _ _ _ _ L1) as C1'.
  apply (omp_loop_C N) in L1. apply (CExec_mono _ _ (inR z N)) in L1; [|intros l (i & e & Hi & [<-|[]] & ->); apply inR_i; lia].
  assert (Z1 : holds m1 z N (di_in N (V_T N) X)).
  { intros e He. unfold di_in. destruct (Nat.eqb_spec e 0) as [->|H0].
    - rewrite (proj1 C1'); [exact V0|]. intros (i & e & Hi & [<-|[]] & E). apply padd_inj in E. lia.
    - apply (V1 (e - 1) e); [lia|]. replace (e - 1 + 1) with e by lia. cbn [ilast]. rewrite Nat.eqb_refl. reflexivity. }
  assert (L01 : CExec ([Par [single (block [x +! 0] [z +! 0] (fun v => match v with [a] => [rval (Re a)] | _ => [] end))]] ++
    omp_loop N (N - 1) (di_rot N V z x)) (inR z N) m m1).
  { eapply (CExec_app _ _ (inR z N) (inR z N)); [exact L0|exact L1|auto|auto]. }
  assert (O1 : forall l, inR z N l -> ~ fft_own b (fst l)).
  { intros l Hl Ho. apply inR_fst in Hl. apply Hz, fft_dct0_own. rewrite <- Hl. auto. }
  assert (Hr1 : rfft_ready b N m1).
  { eapply CExec_ready; [apply rfft_ready_local|exact Hr|exact L01|exact O1]. }
  destruct (rfft_inv_ok b N kind z y m1 (di_in N (V_T N) X)) as (m2 & L2 & Y2); auto.
  { intros Ho. apply Hz, fft_dct0_own, Ho. }
  { intros Ho. apply Hy, fft_dct0_own, Ho. }
  { apply disjR_sym. auto. }
  { intros i Hi. apply Z1. lia. }
  { eapply holds_allocd; exact Z1. }
  { eapply chg_allocd; [apply L01|exact Hay]. }
  assert (A2 : allocd m2 (inR x N)).
  { eapply chg_allocd; [apply L2|]. eapply chg_allocd; [apply L01|]. eapply holds_allocd; exact HX. }
  set (Q := rfft_G N kind (di_in N (V_T N) X)) in *.
  destruct (iloop h (fun p => [y +! p; y +! (N - p - 1)]) x (fun p => [2 * p; 2 * p + 1])
    (fun p v => match v with [a; b] => [a; b] | _ => [] end)
    (fun p => [Q p; Q (N - p - 1)]) m2) as (m3 & L3 & V3).
  { intros i Hi. unfold reads. cbn [map]. rewrite !Y2 by lia. reflexivity. }
  { reflexivity. }
  { intros i e Hi He. apply A2, inR_i. cbn [In] in He. lia. }
  { intros i j e Hi Hj Hne He. cbn [In] in He. split; [|cbn [In]; lia].
    intros [E|[E|[]]]; symmetry in E; (eapply Dxy; [| |exact E]; lia). }
  apply (omp_loop_C N) in L3. apply (CExec_mono _ _ (inR x N)) in L3; [|intros l (i & e & Hi & He & ->); apply inR_i; cbn [In] in He; lia].
  exists m3. split.
  - rewrite app_assoc. eapply (CExec_app _ _ (inR z N) (xyz x y z N)); [exact L01| |intros l Hl; right; auto|auto].
    eapply (CExec_app _ _ (xy z y N) (inR x N)); [exact L2|exact L3|intros l [Hl|Hl]; right; auto|intros l Hl; left; auto].
  - intros e He. unfold dct_G, di_out. fold Q.
    pose proof (Nat.div_mod e 2 ltac:(lia)) as Hdm. pose proof (Nat.mod_upper_bound e 2 ltac:(lia)) as Hmu.
    apply (V3 (e / 2) e); [lia|]. cbn [ilast].
    destruct (Nat.even e) eqn:Ee.
    + apply Nat.even_spec in Ee as (q & Eq). replace (e / 2) with q by (symmetry; apply div_2_eq; auto).
      destruct (Nat.eqb_spec e (2 * q + 1)); [lia|]. destruct (Nat.eqb_spec e (2 * q)); [reflexivity|lia].
    + assert (Eo : Nat.odd e = true) by (rewrite <- Nat.negb_even, Ee; auto). apply Nat.odd_spec in Eo as (q & Eq).
      destruct (Nat.eqb_spec e (2 * (e / 2) + 1)); [f_equal; f_equal; lia|exfalso; lia].
Qed.

(** ** the object *)
Definition dmeth_inv (k : dmeth) : bool := match k with Dfwd | Dfwd0 | Dfwdn => false | _ => true end.
Definition dct_res (N : nat) (k : dmeth) (X : nat -> C) : nat -> C :=
  if dmeth_inv k then dct_G N (dct_kind k) X else dct_F N (dct_kind k) X.

Lemma dct_run_ok b N k x (m : mem) X : dct_length N -> ~ dct_own b (fst x) -> dct_ready b N m -> holds m x N X ->
  exists m', CExec (dct_run b N k x) (xyz x (b + 5, 0) (b + 6, 0) N) m m' /\ holds m' x N (dct_res N k X).
Proof.
  intros HN Hx (Hr & Ha1 & Ha2) HX. unfold dct_run, dct0_run, dct_res.
  assert (A : ~ dct0_own b (fst x)) by (unfold dct0_own, dct_own in *; lia).
  assert (A5 : ~ dct0_own b (b + 5)) by (unfold dct0_own; lia).
  assert (A6 : ~ dct0_own b (b + 6)) by (unfold dct0_own; lia).
  assert (D1 : disjR x N (b + 5, 0) N) by (apply disjR_buf; cbn; unfold dct_own in Hx; lia).
  assert (D2 : disjR x N (b + 6, 0) N) by (apply disjR_buf; cbn; unfold dct_own in Hx; lia).
  assert (D3 : disjR (b + 5, 0) N (b + 6, 0) N) by (apply disjR_buf; cbn; lia).
  destruct k; cbn [dmeth_inv]; (apply dct0_fwd_ok || apply dct0_inv_ok); auto.
Qed.

Section Obj.
Variable b : nat.
Definition dcall : Type := (dmeth * ptr)%type.
Definition dc_call (N : nat) (a : dcall) : list act := dct_run b N (fst a) (snd a).
Definition dc_pre (N : nat) (m : mem) (a : dcall) : Prop := ~ dct_own b (fst (snd a)) /\ exists X, holds m (snd a) N X.
Definition dc_wr (N : nat) (a : dcall) : loc -> Prop := xyz (snd a) (b + 5, 0) (b + 6, 0) N.
Definition dc_post (N : nat) (a : dcall) (m m' : mem) : Prop :=
  forall X, holds m (snd a) N X -> holds m' (snd a) N (dct_res N (fst a) X).
Definition dc_argb (N : nat) (a : dcall) (l : loc) : bool := inRb (snd a) N l.
Definition dct_ownb (c : nat) : bool := (b <=? c) && (c <=? b + 6).
Lemma dct_ownb_spec c : dct_ownb c = true <-> dct_own b c.
Proof. unfold dct_ownb, dct_own. rewrite andb_true_iff, !Nat.leb_le. tauto. Qed.

Definition dct_history : option nat -> mem -> Prop :=
  ghistory (dct_own b) (fun _ n => Some n) (dct_setup b) dc_call dc_pre.

Lemma dc_run_ok N a m : dct_length N -> dct_ready b N m -> dc_pre N m a ->
  exists m', CExec (dc_call N a) (dc_wr N a) m m' /\ dc_post N a m m' /\ dct_ready b N m'.
Proof.
  destruct a as [k x]. intros HN Hr (Hx & X & HX). unfold dc_call, dc_wr, dc_post in *. cbn [fst snd] in *.
  destruct (dct_run_ok b N k x m X HN Hx Hr HX) as (m' & Hc & Hv). exists m'. split; [exact Hc|]. split.
  - intros Y HY. destruct (dct_run_ok b N k x m Y HN Hx Hr HY) as (m2 & Hc2 & Hv2).
    intros i Hi. rewrite <- (Hv2 i Hi). destruct Hc as (_ & E1 & _), Hc2 as (_ & E2 & _). rewrite E1 in E2. injection E2 as ->. reflexivity.
  - destruct Hr as (Hr & Ha1 & Ha2). split; [|split].
    + eapply CExec_ready; [apply dct0_ready_local|exact Hr|exact Hc|].
      intros l [Hl|[Hl|Hl]] Ho; apply inR_fst in Hl; unfold dct0_own, dct_own in *; cbn [fst] in Hl; try lia.

    + eapply chg_allocd; [apply Hc|exact Ha1].
    + eapply chg_allocd; [apply Hc|exact Ha2].
Qed.
Lemma dct_run_par N k x : Forall (fun c : act => match c with Par _ => True | New _ _ => False end) (dct_run b N k x).
Proof.
  assert (K1 : forall k y z, Forall (fun c : act => match c with Par _ => True | New _ _ => False end) (rfft_fwd b N k y z)).
  { intros k0 y z. unfold rfft_fwd. cbv zeta.
  repeat match goal with
  | |- Forall _ (_ ++ _) => apply Forall_app; split
  | |- Forall _ (fft0_run _ _ _ _ _) => exact (fft0_run_par _ _ _ _ _)
  | |- Forall _ (if ?e then _ else _) => destruct e
  | |- Forall _ (_ :: _) => constructor
  | |- Forall _ [] => constructor
  | |- True => exact I
  end. }
  assert (K2 : forall k y z, Forall (fun c : act => match c with Par _ => True | New _ _ => False end) (rfft_inv b N k y z)).
  { intros k0 y z. unfold rfft_inv. cbv zeta.
  repeat match goal with
  | |- Forall _ (_ ++ _) => apply Forall_app; split
  | |- Forall _ (fft0_run _ _ _ _ _) => exact (fft0_run_par _ _ _ _ _)
  | |- Forall _ (if ?e then _ else _) => destruct e
  | |- Forall _ (_ :: _) => constructor
  | |- Forall _ [] => constructor
  | |- True => exact I
  end. }
  unfold dct_run, dct0_run, dct0_fwd, dct0_inv, omp_loop.
  destruct k;
  repeat match goal with
  | |- Forall _ (_ ++ _) => apply Forall_app; split
  | |- Forall _ (rfft_fwd _ _ _ _ _) => apply K1
  | |- Forall _ (rfft_inv _ _ _ _ _) => apply K2
  | |- Forall _ (if ?e then _ else _) => destruct e
  | |- Forall _ (_ :: _) => constructor
  | |- Forall _ [] => constructor
  | |- True => exact I
  end.
Qed.
Lemma dc_arg_ok N a m : dc_pre N m a -> dc_pre N (restrict (fun l => dc_argb N a l || dct_ownb (fst l)) m) a.
Proof.
  destruct a as [k x]. intros (Hx & X & HX). split; [assumption|]. exists X. cbn [fst snd] in *.
  intros i Hi. unfold restrict, dc_argb. cbn [fst snd]. rewrite (proj2 (inRb_spec x N _) (inR_i x N i Hi)). cbn. auto.
Qed.
Lemma dct_setup_news N c n : In (New c n) (dct_setup b N) -> dct_own b c.
Proof.
  unfold dct_setup, dct0_setup. intros H. apply in_app_or in H as [H|H].
  - apply in_app_or in H as [H|[H|H]].
    + apply rfft_setup_news in H. unfold fft_own, dct_own in *. lia.
    + injection H as <- <-. unfold dct_own. lia.
    + in_cases.
  - unfold dct_own. in_cases; lia.
Qed.
Lemma dc_hset : forall N, dct_length N -> SetsUp (dct_own b) (dct_setup b N) (dct_ready b N).
Proof. intros N H. apply dct_setup_ok. apply H. Qed.
Lemma dc_conf (o : option nat) n N : Some n = Some N -> dct_length N -> n = N \/ (o = Some N /\ dct_setup b n = []).
Proof. intros [= ->] _. auto. Qed.

Lemma dct_call_ok N k x m X : dct_length N -> dct_history (Some N) m -> ~ dct_own b (fst x) -> holds m x N X ->
  exists m', Outcome (dct_run b N k x) m m' /\ holds m' x N (dct_res N k X) /\
    (forall l, ~ inR x N l -> ~ dct_own b (fst l) -> m' l = m l) /\
    (forall l, b <= fst l <= b + 4 -> m' l = m l) /\ dct_history (Some N) m' /\
    accesses_only (dct_run b N k x) m (fun l => inR x N l \/ dct_own b (fst l)).
Proof.
  intros HN Hh Hx HX.
  assert (Hp : dc_pre N m (k, x)) by (split; [assumption|]; exists X; auto).
  destruct (gcall (dct_own b) _ (dct_setup b) dc_call dc_pre dc_wr dc_post (dct_ready b) dct_length
    (fun N _ => dct_ready_local b N) dc_hset dc_conf dc_run_ok N (k, x) m HN Hh Hp)
    as (m' & H1 & H2 & H3 & H4).
  exists m'. split; [exact H1|]. split; [apply (H2 X HX)|]. split; [|split; [|split; [exact H4|]]].
  - intros l A B. apply H3. intros [Hl|[Hl|Hl]]; [auto| |]; apply inR_fst in Hl; apply B; rewrite Hl; unfold dct_own; cbn; lia.
  - intros l A. apply H3. intros [Hl|[Hl|Hl]]; apply inR_fst in Hl; cbn [fst snd] in Hl; unfold dct_own in Hx; lia.
  - pose proof (gcall_footprint (dct_own b) dct_ownb dct_ownb_spec (fun _ n => Some n) (dct_setup b) dc_call dc_pre dc_wr dc_post dc_argb (dct_ready b) dct_length
      (fun N _ => dct_ready_local b N) dc_hset dc_conf dc_run_ok (fun N a _ => dct_run_par N (fst a) (snd a)) dc_arg_ok N (k, x) m HN Hh Hp) as H.
    intros kk T m1 Hre i l w Hi Hac. destruct (H kk T m1 Hre i l w Hi Hac) as [E|E]; [|auto].
    left. apply inRb_spec in E. exact E.
Qed.
(** setup works for every length for which 2*N is representable *)
Lemma dct_setup_call N o m : mul_ok 2 N = true -> dct_history o m ->
  exists m', Outcome (dct_setup b N) m m' /\ (forall l, ~ dct_own b (fst l) -> m' l = m l) /\ dct_history (Some N) m' /\
    accesses_only (dct_setup b N) m (fun l => dct_own b (fst l)).
Proof.
  intros Hm Hh. destruct (dct_setup_ok b N Hm m) as (m' & Ho & Hr & Hq & Hf).
  pose proof (acts_Outcome _ _ _ Ho Hr) as Oc. exists m'. split; [exact Oc|]. split; [exact Hf|]. split.
  - destruct Oc as [(m2 & He) Hu _ _ _ _]. eapply h_other; [exact (h_setup (dct_own b) (fun _ n => Some n) (dct_setup b) _ o m m2 N Hh He)|].
    intros l _. symmetry. apply Hu. auto.
  - exact (gsetup_footprint (dct_own b) dct_ownb dct_ownb_spec (dct_setup b) (dct_ready b) (fun n => mul_ok 2 n = true) (fun N H => dct_setup_ok b N H) dct_setup_news N m Hm).
Qed.
Lemma dct_history_any N mo : dct_length N -> exists m, dct_history (Some N) m /\ forall l, ~ dct_own b (fst l) -> m l = mo l.
Proof.
  intros HN. exact (ghistory_any (dct_own b) dct_ownb dct_ownb_spec (fun _ n => Some n) (dct_setup b) dc_call dc_pre (dct_ready b) dct_length dc_hset (fun _ _ _ => eq_refl) N None (fun _ => Free) mo HN (h_start _ _ _ _ _)).
Qed.
End Obj.
End DctRun.
