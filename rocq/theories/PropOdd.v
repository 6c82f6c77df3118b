(** * Negating the input negates the output, exactly, on IEEE-754 binary64 numbers

    Reading guide: [ieee dc ds bd] is the binary64 arithmetic of a build bd with the C library's cos = dc and sin = ds, about which
    nothing is assumed (except in the theorem on zeros).  [opposite z w]: each part of w is minus that part of z as a real number --
    exactly, without rounding error, but a zero may have either sign -- or neither is finite.
    The theorems compare two calls: of the same or of different objects, at the same or at different addresses, with whatever histories. *)

From Coq Require Import Reals ZArith List Arith Bool Lia Lra.
From Flocq Require Import Core.Core IEEE754.BinarySingleNaN.
From Verif Require Import PropMysqrt.
From Verif Require Import Scalar RealOps Spec DftFacts Norm Simd Round Mem MemFacts Omp Lanes Stage Object Engine ApiSpec FactorFacts
  ModelApi History ApiFacts ApiExact Footprint ComplexThms ModelReal RealFacts RealRun RealExact GObj RealObj RealSpec RealThms DctRun DctThms
  ModelBluestein BluesteinRun RoundMixed RoundApi PropAccuracy PropBluesteinAccuracy Param ParamKern ParamFft Ieee64 PropIeee Grade GradeFft PropOverflow Odd OddFft.
From Verif Require PropComplex.
Import ListNotations.
Local Open Scope R_scope.

Definition opposite_d (x y : double) : Prop := is_finite x = is_finite y /\ (is_finite x = true -> B2R y = - B2R x).
Definition opposite (z w : dcomplex) : Prop := opposite_d (fst z) (fst w) /\ opposite_d (snd z) (snd w).

Section Pair.
Variables (dc ds : double -> double) (bd : build).
Notation A := (ieee dc ds bd).
Notation Op := (pair_ops A).
Notation cut N X := (fun i : nat => if (i <? N)%nat then X i else @c0 A).
Definition both2 (N : nat) (X X' : nat -> @C A) (i : nat) : @C Op :=
  if (i <? N)%nat then ((fst (X i), fst (X' i)), (snd (X i), snd (X' i))) else c0.
Lemma both_1 N X X' : @VR Op A R1 (both2 N X X') (cut N X).
Proof. intros i. unfold both2. destruct (i <? N)%nat; split; reflexivity. Qed.
Lemma both_2 N X X' : @VR Op A R2 (both2 N X X') (cut N X').
Proof. intros i. unfold both2. destruct (i <? N)%nat; split; reflexivity. Qed.
Lemma both_D N X X' : (forall i, (i < N)%nat -> opposite (X i) (X' i)) -> VD dc ds bd (both2 N X X').
Proof. intros H i. unfold both2. destruct (Nat.ltb_spec i N) as [Hi|]; [exact (H i Hi)|apply dc_0]. Qed.
Lemma D_opposite (z : @C Op) y y' : @CR Op A R1 z y -> @CR Op A R2 z y' -> DC dc ds bd z -> opposite y y'.
Proof. destruct z as [[a a'] [c c']], y as [y1 y2], y' as [y3 y4]. intros [E1 E2] [E3 E4] [D1 D2]. unfold R1, R2 in E1, E2, E3, E4. cbn in E1, E2, E3, E4. subst. exact (conj D1 D2). Qed.
Lemma cut_holds N (m : mem (@C A)) x X : holds m x N X -> holds m x N (cut N X).
Proof. intros H i Hi. rewrite (H i Hi). rewrite (proj2 (Nat.ltb_lt i N) Hi). reflexivity. Qed.
Lemma rval_opp v w : opposite_d v w -> opposite (@rval A v) (@rval A w).
Proof. intros H. split; [exact H|]. split; [reflexivity|]. intros _. change (0 = - 0). ring. Qed.
End Pair.
Notation cut dc ds bd N X := (fun i : nat => if (i <? N)%nat then X i else @c0 (ieee dc ds bd)).

(** ** C62 *)
Theorem C62_complex_negation : forall dc ds bd N k b x (m : mem (@C (ieee dc ds bd))) X b' x' (m' : mem (@C (ieee dc ds bd))) X',
  valid_length N -> fft_history b (Some N) m -> ~ fft_own b (fst x) -> holds m x N X ->
  fft_history b' (Some N) m' -> ~ fft_own b' (fst x') -> holds m' x' N X' ->
  (forall i, (i < N)%nat -> opposite (X i) (X' i)) ->
  exists m1 Y m1' Y', Outcome (@fft_run (ieee dc ds bd) b N k x) m m1 /\ holds m1 x N Y /\
    Outcome (@fft_run (ieee dc ds bd) b' N k x') m' m1' /\ holds m1' x' N Y' /\ forall i, (i < N)%nat -> opposite (Y i) (Y' i).
Proof.
  intros dc ds bd N k b x m X b' x' m' X' HN Hh Hx HX Hh' Hx' HX' HO. apply cut_holds in HX, HX'.
  destruct (fft_call_any b N k x m _ HN Hh Hx HX) as (m1 & H1 & H2 & _). destruct (fft_call_any b' N k x' m' _ HN Hh' Hx' HX') as (m1' & H1' & H2' & _).
  exists m1, (@fft0_F (ieee dc ds bd) N k (cut dc ds bd N X)), m1', (@fft0_F (ieee dc ds bd) N k (cut dc ds bd N X')).
  split; [exact H1|]. split; [exact H2|]. split; [exact H1'|]. split; [exact H2'|]. intros i Hi.
  eapply D_opposite; [apply (fft0_F_p (fst_sim _) N k _ _ HN (both_1 dc ds bd N X X'))|apply (fft0_F_p (snd_sim _) N k _ _ HN (both_2 dc ds bd N X X'))|].
  apply fft0_F_D; [exact HN|]. apply both_D, HO.
Qed.
Print Assumptions C62_complex_negation.

Theorem C62_real_negation : forall dc ds bd N k b x y (m : mem (@C (ieee dc ds bd))) (v : nat -> double) b' x' y' (m' : mem (@C (ieee dc ds bd))) (v' : nat -> double),
  real_length N -> meth_inv k = false ->
  rfft_history b (Some N) m -> ~ fft_own b (fst x) -> ~ fft_own b (fst y) -> disjR x N y N -> allocd m (inR y N) -> holds m x N (fun j => @rval (ieee dc ds bd) (v j)) ->
  rfft_history b' (Some N) m' -> ~ fft_own b' (fst x') -> ~ fft_own b' (fst y') -> disjR x' N y' N -> allocd m' (inR y' N) -> holds m' x' N (fun j => @rval (ieee dc ds bd) (v' j)) ->
  (forall i, (i < N)%nat -> opposite_d (v i) (v' i)) ->
  exists m1 Y m1' Y', Outcome (@rfft_run (ieee dc ds bd) b N k x y) m m1 /\ holds m1 y N Y /\
    Outcome (@rfft_run (ieee dc ds bd) b' N k x' y') m' m1' /\ holds m1' y' N Y' /\ forall i, (i < N)%nat -> opposite (Y i) (Y' i).
Proof.
  intros dc ds bd N k b x y m v b' x' y' m' v' HN Hk Hh Hx Hy Hd Ha HX Hh' Hx' Hy' Hd' Ha' HX' HO. apply cut_holds in HX, HX'.
  destruct (rfft_call_ok b N k x y m _ HN Hh Hx Hy Hd Ha HX) as (m1 & H1 & H2 & _). destruct (rfft_call_ok b' N k x' y' m' _ HN Hh' Hx' Hy' Hd' Ha' HX') as (m1' & H1' & H2' & _).
  unfold rfft_res in H2, H2'. rewrite Hk in H2, H2'. eexists m1, _, m1', _.
  split; [exact H1|]. split; [exact H2|]. split; [exact H1'|]. split; [exact H2'|]. intros i Hi.
  eapply D_opposite; [apply (rfft_F_p (fst_sim _) N k _ _ HN (both_1 dc ds bd N (fun j => @rval (ieee dc ds bd) (v j)) (fun j => @rval (ieee dc ds bd) (v' j))))|
    apply (rfft_F_p (snd_sim _) N k _ _ HN (both_2 dc ds bd N (fun j => @rval (ieee dc ds bd) (v j)) (fun j => @rval (ieee dc ds bd) (v' j))))|].
  apply rfft_F_D; [exact HN|]. apply both_D. intros j Hj. apply rval_opp, HO, Hj.
Qed.
Print Assumptions C62_real_negation.

Theorem C62_real_inverse_negation : forall dc ds bd N k b x y (m : mem (@C (ieee dc ds bd))) X b' x' y' (m' : mem (@C (ieee dc ds bd))) X',
  real_length N -> meth_inv k = true ->
  rfft_history b (Some N) m -> ~ fft_own b (fst x) -> ~ fft_own b (fst y) -> disjR x N y N -> allocd m (inR y N) -> holds m x N X ->
  rfft_history b' (Some N) m' -> ~ fft_own b' (fst x') -> ~ fft_own b' (fst y') -> disjR x' N y' N -> allocd m' (inR y' N) -> holds m' x' N X' ->
  (forall i, (i < N)%nat -> opposite (X i) (X' i)) ->
  exists m1 r m1' r', Outcome (@rfft_run (ieee dc ds bd) b N k x y) m m1 /\ holds m1 y N (fun j => @rval (ieee dc ds bd) (r j)) /\
    Outcome (@rfft_run (ieee dc ds bd) b' N k x' y') m' m1' /\ holds m1' y' N (fun j => @rval (ieee dc ds bd) (r' j)) /\ forall i, (i < N)%nat -> opposite_d (r i) (r' i).
Proof.
  intros dc ds bd N k b x y m X b' x' y' m' X' HN Hk Hh Hx Hy Hd Ha HX Hh' Hx' Hy' Hd' Ha' HX' HO. apply cut_holds in HX, HX'.
  destruct (rfft_call_ok b N k x y m _ HN Hh Hx Hy Hd Ha HX) as (m1 & H1 & H2 & _). destruct (rfft_call_ok b' N k x' y' m' _ HN Hh' Hx' Hy' Hd' Ha' HX') as (m1' & H1' & H2' & _).
  unfold rfft_res in H2, H2'. rewrite Hk in H2, H2'.
  exists m1, (fun j => Re (@rfft_G (ieee dc ds bd) N k (cut dc ds bd N X) j)), m1', (fun j => Re (@rfft_G (ieee dc ds bd) N k (cut dc ds bd N X') j)).
  split; [exact H1|]. split; [exact H2|]. split; [exact H1'|]. split; [exact H2'|]. intros i Hi.
  refine (proj1 (D_opposite dc ds bd _ _ _ (rfft_G_p (fst_sim _) N k _ _ HN (both_1 dc ds bd N X X') i) (rfft_G_p (snd_sim _) N k _ _ HN (both_2 dc ds bd N X X') i) _)).
  apply rfft_G_D; [exact HN|]. apply both_D, HO.
Qed.
Print Assumptions C62_real_inverse_negation.

Theorem C62_dct_negation : forall dc ds bd N k b x (m : mem (@C (ieee dc ds bd))) (v : nat -> double) b' x' (m' : mem (@C (ieee dc ds bd))) (v' : nat -> double),
  dct_length N -> dct_history b (Some N) m -> ~ dct_own b (fst x) -> holds m x N (fun j => @rval (ieee dc ds bd) (v j)) ->
  dct_history b' (Some N) m' -> ~ dct_own b' (fst x') -> holds m' x' N (fun j => @rval (ieee dc ds bd) (v' j)) ->
  (forall i, (i < N)%nat -> opposite_d (v i) (v' i)) ->
  exists m1 r m1' r', Outcome (@dct_run (ieee dc ds bd) b N k x) m m1 /\ holds m1 x N (fun j => @rval (ieee dc ds bd) (r j)) /\
    Outcome (@dct_run (ieee dc ds bd) b' N k x') m' m1' /\ holds m1' x' N (fun j => @rval (ieee dc ds bd) (r' j)) /\ forall i, (i < N)%nat -> opposite_d (r i) (r' i).
Proof.
  intros dc ds bd N k b x m v b' x' m' v' HN Hh Hx HX Hh' Hx' HX' HO. apply cut_holds in HX, HX'.
  set (X := fun j => @rval (ieee dc ds bd) (v j)) in *. set (X' := fun j => @rval (ieee dc ds bd) (v' j)) in *.
  destruct (dct_call_ok b N k x m _ HN Hh Hx HX) as (m1 & H1 & H2 & _). destruct (dct_call_ok b' N k x' m' _ HN Hh' Hx' HX') as (m1' & H1' & H2' & _).
  exists m1, (fun j => Re (@dct_res (ieee dc ds bd) N k (cut dc ds bd N X) j)), m1', (fun j => Re (@dct_res (ieee dc ds bd) N k (cut dc ds bd N X') j)).
  split; [exact H1|]. split; [intros j Hj; rewrite <- dct_rval; apply H2, Hj|]. split; [exact H1'|]. split; [intros j Hj; rewrite <- dct_rval; apply H2', Hj|]. intros i Hi.
  refine (proj1 (D_opposite dc ds bd _ _ _ (dct_res_p (fst_sim _) N k _ _ HN (both_1 dc ds bd N X X') i) (dct_res_p (snd_sim _) N k _ _ HN (both_2 dc ds bd N X X') i) _)).
  apply dct_res_D; [exact HN|]. apply both_D. intros j Hj. apply rval_opp, HO, Hj.
Qed.
Print Assumptions C62_dct_negation.

Theorem C62_bluestein_negation : forall dc ds bd N k b x (m : mem (@C (ieee dc ds bd))) X b' x' (m' : mem (@C (ieee dc ds bd))) X',
  bl_length N -> bl_history b (Some N) m -> ~ bl_own b (fst x) -> holds m x N X ->
  bl_history b' (Some N) m' -> ~ bl_own b' (fst x') -> holds m' x' N X' ->
  (forall i, (i < N)%nat -> opposite (X i) (X' i)) ->
  exists m1 Y m1' Y', Outcome (@bl_run (ieee dc ds bd) b N k x) m m1 /\ holds m1 x N Y /\
    Outcome (@bl_run (ieee dc ds bd) b' N k x') m' m1' /\ holds m1' x' N Y' /\ forall i, (i < N)%nat -> opposite (Y i) (Y' i).
Proof.
  intros dc ds bd N k b x m X b' x' m' X' HN Hh Hx HX Hh' Hx' HX' HO. apply cut_holds in HX, HX'.
  destruct (bl_call_ok b N k x m _ HN Hh Hx HX) as (m1 & H1 & H2 & _). destruct (bl_call_ok b' N k x' m' _ HN Hh' Hx' HX') as (m1' & H1' & H2' & _).
  exists m1, (@bl_F (ieee dc ds bd) N k (cut dc ds bd N X)), m1', (@bl_F (ieee dc ds bd) N k (cut dc ds bd N X')).
  split; [exact H1|]. split; [exact H2|]. split; [exact H1'|]. split; [exact H2'|]. intros i Hi.
  eapply D_opposite; [apply (bl_F_p (fst_sim _) N k _ _ HN (both_1 dc ds bd N X X'))|apply (bl_F_p (snd_sim _) N k _ _ HN (both_2 dc ds bd N X X'))|].
  apply bl_F_D; [exact HN|]. apply both_D, HO.
Qed.
Print Assumptions C62_bluestein_negation.

(** ** silence: zeros (of either sign) in give zeros out, exactly *)
Definition zero_d (x : double) : Prop := is_finite x = true /\ B2R x = 0.
Definition zero_c (z : dcomplex) : Prop := zero_d (fst z) /\ zero_d (snd z).
Lemma zero_opposite_d x : zero_d x -> opposite_d x x.
Proof. intros [H1 H2]. split; [reflexivity|]. intros _. rewrite H2. ring. Qed.
Lemma zero_opposite z : zero_c z -> opposite z z.
Proof. intros [H1 H2]. split; apply zero_opposite_d; assumption. Qed.
Lemma opposite_zero_d x : is_finite x = true -> opposite_d x x -> zero_d x.
Proof. intros F [_ H]. specialize (H F). split; [exact F|lra]. Qed.
Lemma opposite_zero z : finite_c z -> opposite z z -> zero_c z.
Proof. intros [F1 F2] [H1 H2]. split; apply opposite_zero_d; assumption. Qed.
Lemma zero_bounded z : zero_c z -> bounded 0 z.
Proof. intros [[F1 V1] [F2 V2]]. unfold bounded. rewrite V1, V2, Rabs_R0. cbn [pow]. repeat split; auto; lra. Qed.

Theorem C62_complex_silence : forall dc ds lam, libm dc ds lam -> lam <= 1 -> forall bd b N k x (m : mem (@C (ieee dc ds bd))) X,
  valid_length N -> fft_history b (Some N) m -> ~ fft_own b (fst x) -> holds m x N X -> (forall i, (i < N)%nat -> zero_c (X i)) ->
  exists m' Y, Outcome (@fft_run (ieee dc ds bd) b N k x) m m' /\ holds m' x N Y /\ forall i, (i < N)%nat -> zero_c (Y i).
Proof.
  intros dc ds lam L Hl bd b N k x m X HN Hh Hx HX HZ. apply cut_holds in HX. destruct (fft_call_any b N k x m _ HN Hh Hx HX) as (m1 & H1 & H2 & _).
  eexists m1, _. split; [exact H1|]. split; [exact H2|]. intros i Hi.
  assert (HB : GV dc ds bd N 0 (cut dc ds bd N X)) by (apply bounded_GV; intros j Hj; rewrite (proj2 (Nat.ltb_lt j N) Hj); apply zero_bounded, HZ, Hj).
  apply opposite_zero.
  - eapply bounded_fin, (GV_bounded dc ds bd); [apply (fft0_F_G dc ds lam L Hl bd N k 0%nat); [exact HN|exact HB]| |exact Hi]. pose proof (log2_30 N ltac:(apply HN) ltac:(apply HN)). lia.
  - eapply D_opposite; [apply (fft0_F_p (fst_sim _) N k _ _ HN (both_1 dc ds bd N X X))|apply (fft0_F_p (snd_sim _) N k _ _ HN (both_2 dc ds bd N X X))|].
    apply fft0_F_D; [exact HN|]. apply both_D. intros j Hj. apply zero_opposite, HZ, Hj.
Qed.
Print Assumptions C62_complex_silence.
Lemma real_log N : real_length N -> (Nat.log2 N <= 30)%nat.
Proof. intros (E & H & H2 & _). apply log2_30; [lia|exact H]. Qed.
Theorem C62_real_silence : forall dc ds lam, libm dc ds lam -> lam <= 1 -> forall bd b N k x y (m : mem (@C (ieee dc ds bd))) (v : nat -> double),
  real_length N -> meth_inv k = false -> rfft_history b (Some N) m -> ~ fft_own b (fst x) -> ~ fft_own b (fst y) -> disjR x N y N -> allocd m (inR y N) ->
  holds m x N (fun j => @rval (ieee dc ds bd) (v j)) -> (forall i, (i < N)%nat -> zero_d (v i)) ->
  exists m' Y, Outcome (@rfft_run (ieee dc ds bd) b N k x y) m m' /\ holds m' y N Y /\ forall i, (i < N)%nat -> zero_c (Y i).
Proof.
  intros dc ds lam L Hl bd b N k x y m v HN Hk Hh Hx Hy Hd Ha HX HZ. apply cut_holds in HX. set (X := fun j => @rval (ieee dc ds bd) (v j)) in *.
  assert (HZX : forall i, (i < N)%nat -> zero_c (X i)) by (intros i Hi; split; [apply HZ, Hi|split; reflexivity]).
  destruct (rfft_call_ok b N k x y m _ HN Hh Hx Hy Hd Ha HX) as (m1 & H1 & H2 & _). unfold rfft_res in H2. rewrite Hk in H2.
  eexists m1, _. split; [exact H1|]. split; [exact H2|]. intros i Hi.
  assert (HB : GV dc ds bd N 0 (cut dc ds bd N X)) by (apply bounded_GV; intros j Hj; rewrite (proj2 (Nat.ltb_lt j N) Hj); apply zero_bounded, HZX, Hj).
  apply opposite_zero.
  - eapply bounded_fin, (GV_bounded dc ds bd); [apply (rfft_F_G dc ds lam L Hl bd N k 0%nat); [exact HN|exact HB]| |exact Hi]. pose proof (real_log N HN). lia.
  - eapply D_opposite; [apply (rfft_F_p (fst_sim _) N k _ _ HN (both_1 dc ds bd N X X))|apply (rfft_F_p (snd_sim _) N k _ _ HN (both_2 dc ds bd N X X))|].
    apply rfft_F_D; [exact HN|]. apply both_D. intros j Hj. apply zero_opposite, HZX, Hj.
Qed.
Print Assumptions C62_real_silence.
Theorem C62_dct_silence : forall dc ds lam, libm dc ds lam -> lam <= 1 -> forall bd b N k x (m : mem (@C (ieee dc ds bd))) (v : nat -> double),
  dct_length N -> dct_history b (Some N) m -> ~ dct_own b (fst x) -> holds m x N (fun j => @rval (ieee dc ds bd) (v j)) -> (forall i, (i < N)%nat -> zero_d (v i)) ->
  exists m' r, Outcome (@dct_run (ieee dc ds bd) b N k x) m m' /\ holds m' x N (fun j => @rval (ieee dc ds bd) (r j)) /\ forall i, (i < N)%nat -> zero_d (r i).
Proof.
  intros dc ds lam L Hl bd b N k x m v HN Hh Hx HX HZ. apply cut_holds in HX. set (X := fun j => @rval (ieee dc ds bd) (v j)) in *.
  assert (HZX : forall i, (i < N)%nat -> zero_c (X i)) by (intros i Hi; split; [apply HZ, Hi|split; reflexivity]).
  destruct (dct_call_ok b N k x m _ HN Hh Hx HX) as (m1 & H1 & H2 & _).
  exists m1, (fun j => Re (@dct_res (ieee dc ds bd) N k (cut dc ds bd N X) j)). split; [exact H1|]. split; [intros j Hj; rewrite <- dct_rval; apply H2, Hj|]. intros i Hi.
  assert (HB : GV dc ds bd N 0 (cut dc ds bd N X)) by (apply bounded_GV; intros j Hj; rewrite (proj2 (Nat.ltb_lt j N) Hj); apply zero_bounded, HZX, Hj).
  refine (proj1 (opposite_zero _ _ (D_opposite dc ds bd _ _ _ (dct_res_p (fst_sim _) N k _ _ HN (both_1 dc ds bd N X X) i) (dct_res_p (snd_sim _) N k _ _ HN (both_2 dc ds bd N X X) i) _))).
  - eapply bounded_fin, (GV_bounded dc ds bd); [apply (dct_res_G dc ds lam L Hl bd N k 0%nat); [exact HN|exact HB]| |exact Hi]. pose proof (real_log N ltac:(apply HN)). lia.
  - apply dct_res_D; [exact HN|]. apply both_D. intros j Hj. apply zero_opposite, HZX, Hj.
Qed.
Print Assumptions C62_dct_silence.

Theorem C62_real_inverse_silence : forall dc ds lam, libm dc ds lam -> lam <= 1 -> forall bd b N k x y (m : mem (@C (ieee dc ds bd))) X,
  real_length N -> meth_inv k = true -> rfft_history b (Some N) m -> ~ fft_own b (fst x) -> ~ fft_own b (fst y) -> disjR x N y N -> allocd m (inR y N) ->
  holds m x N X -> (forall i, (i < N)%nat -> zero_c (X i)) ->
  exists m' r, Outcome (@rfft_run (ieee dc ds bd) b N k x y) m m' /\ holds m' y N (fun j => @rval (ieee dc ds bd) (r j)) /\ forall i, (i < N)%nat -> zero_d (r i).
Proof.
  intros dc ds lam L Hl bd b N k x y m X HN Hk Hh Hx Hy Hd Ha HX HZ. apply cut_holds in HX.
  destruct (rfft_call_ok b N k x y m _ HN Hh Hx Hy Hd Ha HX) as (m1 & H1 & H2 & _). unfold rfft_res in H2. rewrite Hk in H2.
  exists m1, (fun j => Re (@rfft_G (ieee dc ds bd) N k (cut dc ds bd N X) j)). split; [exact H1|]. split; [exact H2|]. intros i Hi.
  assert (HB : GV dc ds bd N 0 (cut dc ds bd N X)) by (apply bounded_GV; intros j Hj; rewrite (proj2 (Nat.ltb_lt j N) Hj); apply zero_bounded, HZ, Hj).
  refine (proj1 (opposite_zero _ _ (D_opposite dc ds bd _ _ _ (rfft_G_p (fst_sim _) N k _ _ HN (both_1 dc ds bd N X X) i) (rfft_G_p (snd_sim _) N k _ _ HN (both_2 dc ds bd N X X) i) _))).
  - eapply bounded_fin, (GV_bounded dc ds bd); [apply (rfft_G_G dc ds lam L Hl bd N k 0%nat); [exact HN|exact HB]| |exact Hi]. pose proof (real_log N HN). lia.
  - apply rfft_G_D; [exact HN|]. apply both_D. intros j Hj. apply zero_opposite, HZ, Hj.
Qed.
Print Assumptions C62_real_inverse_silence.
Theorem C62_bluestein_silence : forall dc ds lam, libm dc ds lam -> lam <= 1 -> forall bd b N k x (m : mem (@C (ieee dc ds bd))) X,
  bl_length N -> bl_history b (Some N) m -> ~ bl_own b (fst x) -> holds m x N X -> (forall i, (i < N)%nat -> zero_c (X i)) ->
  exists m' Y, Outcome (@bl_run (ieee dc ds bd) b N k x) m m' /\ holds m' x N Y /\ forall i, (i < N)%nat -> zero_c (Y i).
Proof.
  intros dc ds lam L Hl bd b N k x m X HN Hh Hx HX HZ. apply cut_holds in HX. destruct (bl_call_ok b N k x m _ HN Hh Hx HX) as (m1 & H1 & H2 & _).
  eexists m1, _. split; [exact H1|]. split; [exact H2|]. intros i Hi. destruct (Nat.le_gt_cases 2 N) as [HN2|HN2].
  - assert (HB : GV dc ds bd N 0 (cut dc ds bd N X)) by (apply bounded_GV; intros j Hj; rewrite (proj2 (Nat.ltb_lt j N) Hj); apply zero_bounded, HZ, Hj).
    destruct (bl_pad N HN) as (n & EP & _). set (P := (2 ^ n)%nat) in *. pose proof (proj2 (bl_pad_valid N P HN EP) HN2) as HV. apply opposite_zero.
    + eapply bounded_fin, (GV_bounded dc ds bd); [apply (bl_F_G dc ds lam L Hl bd N P k 0%nat); [exact HN|exact HN2|exact EP|exact HB]| |exact Hi].
      pose proof (log2_30 P ltac:(apply HV) ltac:(apply HV)). lia.
    + eapply D_opposite; [apply (bl_F_p (fst_sim _) N k _ _ HN (both_1 dc ds bd N X X))|apply (bl_F_p (snd_sim _) N k _ _ HN (both_2 dc ds bd N X X))|].
      apply bl_F_D; [exact HN|]. apply both_D. intros j Hj. apply zero_opposite, HZ, Hj.
  - assert (N = 1%nat) as -> by (unfold bl_length in HN; lia). assert (i = 0%nat) as -> by lia. exact (HZ 0%nat Hi).
Qed.
Print Assumptions C62_bluestein_silence.

(** the hypotheses are met: any data X of length 120 (= 8 * 5 * 3), and -X, at two addresses, transformed by two objects *)
Lemma bopp_opposite (z : dcomplex) : opposite z (Bopp (fst z), Bopp (snd z)).
Proof. split; (split; [symmetry; apply is_finite_Bopp|intros _; apply B2R_Bopp]). Qed.
Example C62_example : forall dc ds bd b x b' x' k X, ~ fft_own b (fst x) -> ~ fft_own b' (fst x') ->
  exists (m m' m1 m1' : mem (@C (ieee dc ds bd))) Y Y', holds m x 120 X /\ holds m' x' 120 (fun i => (Bopp (fst (X i)), Bopp (snd (X i)))) /\
    Outcome (@fft_run (ieee dc ds bd) b 120 k x) m m1 /\ holds m1 x 120 Y /\
    Outcome (@fft_run (ieee dc ds bd) b' 120 k x') m' m1' /\ holds m1' x' 120 Y' /\ forall i, (i < 120)%nat -> opposite (Y i) (Y' i).
Proof.
  intros dc ds bd b x b' x' k X Hx Hx'.
  destruct (PropComplex.complex_hypotheses_met (ieee dc ds bd) b 120 x X Hx) as (m & H1 & H2).
  destruct (PropComplex.complex_hypotheses_met (ieee dc ds bd) b' 120 x' (fun i => (Bopp (fst (X i)), Bopp (snd (X i)))) Hx') as (m' & H3 & H4).
  destruct (C62_complex_negation dc ds bd 120 k b x m X b' x' m' _ ltac:(apply PropComplex.valid_lengths; vm_compute; [repeat constructor|discriminate]) H1 Hx H2 H3 Hx' H4 (fun i _ => bopp_opposite (X i))) as (m1 & Y & m1' & Y' & K).
  exists m, m', m1, m1', Y, Y'. tauto.
Qed.
