(** * C24, C25 for RealFFT, RealDCT and BluesteinFFT

    The statements of [PropComplex.C24_setup_forgets] and [PropComplex.C25_object_unchanged] for the other objects: any arithmetic,
    any earlier use, anything the client does to its own memory in between. *)

From Coq Require Import List Arith ZArith Bool Lia.
From Verif Require Import Scalar Mem MemFacts Omp Lanes Stage Object Engine ApiSpec ModelApi History ApiFacts Footprint ComplexThms
  ModelReal RealRun RealObj GObj RealSpec RealThms DctRun DctThms ModelBluestein BluesteinRun.
Import ListNotations.

(** ** C24: object b has any past (history o, m0), object b' lies in arbitrary memory m0'; both are set up for N; whatever happens
    to memory that is not theirs, the same call on the same data gives the same result. *)
Theorem C24_real_setup_forgets : forall (Op : Ops) N k b o m0 b' m0' m1 m1' x y x' y' (m m' : mem C) X,
  real_length N ->
  rfft_history b o m0 -> call_exec (rfft_setup b N) m0 m1 -> call_exec (rfft_setup b' N) m0' m1' ->
  (forall l, fft_own b (fst l) -> m l = m1 l) -> (forall l, fft_own b' (fst l) -> m' l = m1' l) ->
  ~ fft_own b (fst x) -> ~ fft_own b (fst y) -> disjR x N y N -> allocd m (inR y N) -> holds m x N X ->
  ~ fft_own b' (fst x') -> ~ fft_own b' (fst y') -> disjR x' N y' N -> allocd m' (inR y' N) -> holds m' x' N X ->
  exists m2 m2' Y, Outcome (rfft_run b N k x y) m m2 /\ Outcome (rfft_run b' N k x' y') m' m2' /\ holds m2 y N Y /\ holds m2' y' N Y.
Proof.
  intros Op N k b o m0 b' m0' m1 m1' x y x' y' m m' X HN Hh He He' Hf Hf' Hx Hy Hd Ha HX Hx' Hy' Hd' Ha' HX'.
  assert (H : rfft_history b (Some N) m) by (eapply h_other; [exact (h_setup (fft_own b) (fun _ n => Some n) (rfft_setup b) _ o m0 m1 N Hh He)|auto]).
  assert (H' : rfft_history b' (Some N) m') by (eapply h_other; [exact (h_setup (fft_own b') (fun _ n => Some n) (rfft_setup b') _ None m0' m1' N (h_start _ _ _ _ m0') He')|auto]).
  destruct (rfft_call_ok b N k x y m X HN H Hx Hy Hd Ha HX) as (m2 & O & R & _).
  destruct (rfft_call_ok b' N k x' y' m' X HN H' Hx' Hy' Hd' Ha' HX') as (m2' & O' & R' & _).
  exists m2, m2', (rfft_res N k X). auto.
Qed.
Print Assumptions C24_real_setup_forgets.

Theorem C24_dct_setup_forgets : forall (Op : Ops) N k b o m0 b' m0' m1 m1' x x' (m m' : mem C) X,
  dct_length N ->
  dct_history b o m0 -> call_exec (dct_setup b N) m0 m1 -> call_exec (dct_setup b' N) m0' m1' ->
  (forall l, dct_own b (fst l) -> m l = m1 l) -> (forall l, dct_own b' (fst l) -> m' l = m1' l) ->
  ~ dct_own b (fst x) -> holds m x N X -> ~ dct_own b' (fst x') -> holds m' x' N X ->
  exists m2 m2' Y, Outcome (dct_run b N k x) m m2 /\ Outcome (dct_run b' N k x') m' m2' /\ holds m2 x N Y /\ holds m2' x' N Y.
Proof.
  intros Op N k b o m0 b' m0' m1 m1' x x' m m' X HN Hh He He' Hf Hf' Hx HX Hx' HX'.
  assert (H : dct_history b (Some N) m) by (eapply h_other; [exact (h_setup (dct_own b) (fun _ n => Some n) (dct_setup b) _ o m0 m1 N Hh He)|auto]).
  assert (H' : dct_history b' (Some N) m') by (eapply h_other; [exact (h_setup (dct_own b') (fun _ n => Some n) (dct_setup b') _ None m0' m1' N (h_start _ _ _ _ m0') He')|auto]).
  destruct (dct_call_ok b N k x m X HN H Hx HX) as (m2 & O & R & _).
  destruct (dct_call_ok b' N k x' m' X HN H' Hx' HX') as (m2' & O' & R' & _).
  exists m2, m2', (dct_res N k X). auto.
Qed.
Print Assumptions C24_dct_setup_forgets.

Theorem C24_bluestein_setup_forgets : forall (Op : Ops) N k b o m0 b' m0' m1 m1' x x' (m m' : mem C) X,
  bl_length N ->
  bl_history b o m0 -> call_exec (bl_setup b N) m0 m1 -> call_exec (bl_setup b' N) m0' m1' ->
  (forall l, bl_own b (fst l) -> m l = m1 l) -> (forall l, bl_own b' (fst l) -> m' l = m1' l) ->
  ~ bl_own b (fst x) -> holds m x N X -> ~ bl_own b' (fst x') -> holds m' x' N X ->
  exists m2 m2' Y, Outcome (bl_run b N k x) m m2 /\ Outcome (bl_run b' N k x') m' m2' /\ holds m2 x N Y /\ holds m2' x' N Y.
Proof.
  intros Op N k b o m0 b' m0' m1 m1' x x' m m' X HN Hh He He' Hf Hf' Hx HX Hx' HX'.
  assert (E : forall o', bl_conf o' N = Some N) by (intros o'; exact (bc_conf_v o' N HN)).
  assert (H : bl_history b (Some N) m).
  { eapply h_other; [|exact Hf]. unfold bl_history, ghistory. rewrite <- (E o). exact (h_setup _ _ (bl_setup b) _ o m0 m1 N Hh He). }
  assert (H' : bl_history b' (Some N) m').
  { eapply h_other; [|exact Hf']. unfold bl_history, ghistory. rewrite <- (E None). exact (h_setup _ _ (bl_setup b') _ None m0' m1' N (h_start _ _ _ _ m0') He'). }
  destruct (bl_call_ok b N k x m X HN H Hx HX) as (m2 & O & R & _).
  destruct (bl_call_ok b' N k x' m' X HN H' Hx' HX') as (m2' & O' & R' & _).
  exists m2, m2', (bl_F N k X). auto.
Qed.
Print Assumptions C24_bluestein_setup_forgets.

(** ** C25: what k' on x' gives does not depend on whether k ran before on x *)
Theorem C25_dct_object_unchanged : forall (Op : Ops) b N k k' x x' (m m2 : mem C) X X',
  dct_length N -> dct_history b (Some N) m -> ~ dct_own b (fst x) -> holds m x N X -> ~ dct_own b (fst x') -> holds m x' N X' ->
  exists m' m1 Y, Outcome (dct_run b N k x) m m' /\ (forall l, b <= fst l <= b + 4 -> m' l = m l) /\
    Outcome (dct_run b N k' x') m m1 /\ holds m1 x' N Y /\
    ((forall l, dct_own b (fst l) -> m2 l = m' l) -> holds m2 x' N X' ->
     exists m3, Outcome (dct_run b N k' x') m2 m3 /\ holds m3 x' N Y).
Proof.
  intros Op b N k k' x x' m m2 X X' HN Hh Hx HX Hx' HX'.
  destruct (dct_call_ok b N k x m X HN Hh Hx HX) as (m' & H1 & H2 & _ & H3 & H4 & _).
  destruct (dct_call_ok b N k' x' m X' HN Hh Hx' HX') as (m1 & I1 & I2 & _).
  exists m', m1, (dct_res N k' X'). split; [exact H1|]. split; [exact H3|]. split; [exact I1|]. split; [exact I2|].
  intros Hf HX2. assert (H5 : dct_history b (Some N) m2) by (eapply h_other; [exact H4|auto]).
  destruct (dct_call_ok b N k' x' m2 X' HN H5 Hx' HX2) as (m3 & J1 & J2 & _). exists m3. auto.
Qed.
Print Assumptions C25_dct_object_unchanged.

Theorem C25_real_repeat : forall (Op : Ops) b N k k' x y x' y' (m m2 : mem C) X X',
  real_length N -> rfft_history b (Some N) m ->
  ~ fft_own b (fst x) -> ~ fft_own b (fst y) -> disjR x N y N -> allocd m (inR y N) -> holds m x N X ->
  ~ fft_own b (fst x') -> ~ fft_own b (fst y') -> disjR x' N y' N -> allocd m (inR y' N) -> holds m x' N X' ->
  exists m' m1 Y, Outcome (rfft_run b N k x y) m m' /\ Outcome (rfft_run b N k' x' y') m m1 /\ holds m1 y' N Y /\
    ((forall l, fft_own b (fst l) -> m2 l = m' l) -> allocd m2 (inR y' N) -> holds m2 x' N X' ->
     exists m3, Outcome (rfft_run b N k' x' y') m2 m3 /\ holds m3 y' N Y).
Proof.
  intros Op b N k k' x y x' y' m m2 X X' HN Hh Hx Hy Hd Ha HX Hx' Hy' Hd' Ha' HX'.
  destruct (rfft_call_ok b N k x y m X HN Hh Hx Hy Hd Ha HX) as (m' & H1 & H2 & _ & H4 & _).
  destruct (rfft_call_ok b N k' x' y' m X' HN Hh Hx' Hy' Hd' Ha' HX') as (m1 & I1 & I2 & _).
  exists m', m1, (rfft_res N k' X'). split; [exact H1|]. split; [exact I1|]. split; [exact I2|].
  intros Hf Ha2 HX2. assert (H5 : rfft_history b (Some N) m2) by (eapply h_other; [exact H4|auto]).
  destruct (rfft_call_ok b N k' x' y' m2 X' HN H5 Hx' Hy' Hd' Ha2 HX2) as (m3 & J1 & J2 & _). exists m3. auto.
Qed.
Print Assumptions C25_real_repeat.

(** ** The hypotheses are met: a RealDCT object used with length 16, then set up for 12, and a fresh one *)
From Verif Require PropReal PropDct.
Example C24_dct_hypotheses_met : forall (Op : Ops) b (X : nat -> C), exists m0 m1 m0' m1' (m : mem C),
  dct_length 12 /\ dct_history b (Some 16) m0 /\ call_exec (dct_setup b 12) m0 m1 /\ call_exec (dct_setup b 12) m0' m1' /\
  (forall l, dct_own b (fst l) -> m l = m1 l) /\ ~ dct_own b (fst (b + 10, 0)) /\ holds m (b + 10, 0) 12 X.
Proof.
  intros Op b X. assert (Hx : ~ dct_own b (fst (b + 10, 0))) by (unfold dct_own; cbn [fst]; lia).
  assert (L16 : dct_length 16) by (apply PropDct.dct_lengths; [apply (proj2 PropReal.real_lengths 8); lia|lia]).
  assert (L12 : dct_length 12) by (apply PropDct.dct_lengths; [apply (proj2 PropReal.real_lengths 6); lia|lia]).
  destruct (PropDct.dct_hypotheses_met Op b 16 (b + 10, 0) X L16 Hx) as (m0 & Hh & HX).
  destruct (PropDct.C07_dct_setup_safety Op b 12 (Some 16) m0 ltac:(lia) Hh) as [(m1 & O1 & F1) _].
  destruct (PropDct.C07_dct_setup_safety Op b 12 None (fun _ => Free) ltac:(lia) (h_start _ _ _ _ _)) as [(m1' & O1' & _) _].
  destruct O1 as [(m2 & E1) U1 _ _ _ _]. destruct O1' as [(m2' & E1') _ _ _ _ _].
  exists m0, m2, (fun _ => Free), m2', m2. split; [exact L12|]. split; [exact Hh|]. split; [exact E1|]. split; [exact E1'|]. split; [auto|]. split; [exact Hx|].
  intros i Hi. rewrite (U1 m2 E1), F1 by exact Hx. apply HX. lia.
Qed.
