(** * Properties of the discrete cosine transform (RealDCT, class DCT)

    Reading guide: see PropComplex.v and PropReal.v.  A DCT object occupies the buffers b..b+6, of which
    b+5 and b+6 are its work areas.  [dct_length N]: [real_length N] and N < 2^30 (2*N representable).
    DCT2 (Spec.v), DCT3 and dct_spec (RealSpec.v) are the mathematical transforms. *)

From Coq Require Import Reals List Arith ZArith Bool Lia.
From Verif Require Import Scalar RealOps Spec Mem MemFacts Omp Lanes Stage Object Engine
  ModelApi History ApiFacts Footprint ModelReal RealRun RealSpec DctRun DctThms.
Import ListNotations.

(** C19: fwd0 computes the DCT-II, fwd and fwdn that divided by N *)
Theorem C19_dct_forward : forall b N k x (m : mem CC) v,
  In k [Dfwd; Dfwd0; Dfwdn] ->
  dct_length N -> dct_history b (Some N) m -> ~ dct_own b (fst x) -> holds m x N (fun j => rc (v j)) ->
  exists m', Outcome (dct_run b N k x) m m' /\
    (forall i, i < N -> m' (x +! i) = Val (rc (
      let S := rsum N (fun j => v j * cos (PI * INR i * (2 * INR j + 1) / (2 * INR N)))%R in
      match k with Dfwd0 => S | _ => (S / INR N)%R end))) /\
    (forall l, ~ inR x N l -> ~ dct_own b (fst l) -> m' l = m l).
Proof.
  intros b N k x m v Hk HN Hh Hx HX. destruct (dct_exact b N k x m v HN Hh Hx HX) as (m' & H1 & H2 & H3 & _).
  exists m'. split; [exact H1|]. split; [|exact H3]. intros i Hi. rewrite (H2 i Hi).
  repeat (destruct Hk as [<-|Hk]; [reflexivity|]). destruct Hk.
Qed.
Print Assumptions C19_dct_forward.

(** C20: the inverse methods compute the DCT-III with their scalings ... *)
Theorem C20_dct_inverse : forall b N k x (m : mem CC) v,
  In k [Dinv; Dinv0; Dinvn] ->
  dct_length N -> dct_history b (Some N) m -> ~ dct_own b (fst x) -> holds m x N (fun j => rc (v j)) ->
  exists m', Outcome (dct_run b N k x) m m' /\
    (forall i, i < N -> m' (x +! i) = Val (rc (
      let S := (v 0%nat + 2 * rsum (N - 1) (fun j => v (S j) * cos (PI * INR (S j) * (2 * INR i + 1) / (2 * INR N))))%R in
      match k with Dinvn => (S / INR N)%R | _ => S end))) /\
    (forall l, ~ inR x N l -> ~ dct_own b (fst l) -> m' l = m l).
Proof.
  intros b N k x m v Hk HN Hh Hx HX. destruct (dct_exact b N k x m v HN Hh Hx HX) as (m' & H1 & H2 & H3 & _).
  exists m'. split; [exact H1|]. split; [|exact H3]. intros i Hi. rewrite (H2 i Hi).
  repeat (destruct Hk as [<-|Hk]; [reflexivity|]). destruct Hk.
Qed.
Print Assumptions C20_dct_inverse.
(** ... and are inverse, in both orders, to the forward methods with matching scaling *)
Theorem C20_dct_round_trip : forall k1 k2 b N x (m : mem CC) v,
  In (k1, k2) [(Dfwd, Dinv); (Dfwd, Dinv0); (Dfwdn, Dinv); (Dfwdn, Dinv0); (Dfwd0, Dinvn);
    (Dinv, Dfwd); (Dinv, Dfwdn); (Dinv0, Dfwd); (Dinv0, Dfwdn); (Dinvn, Dfwd0)] ->
  dct_length N -> dct_history b (Some N) m -> ~ dct_own b (fst x) -> holds m x N (fun j => rc (v j)) ->
  exists m1, Outcome (dct_run b N k1 x) m m1 /\
    forall m2, (forall l, dct_own b (fst l) \/ inR x N l -> m2 l = m1 l) ->
    exists m3, Outcome (dct_run b N k2 x) m2 m3 /\ holds m3 x N (fun j => rc (v j)).
Proof. exact dct_round_trip. Qed.
Print Assumptions C20_dct_round_trip.

(** C29 for the DCT *)
Theorem C29_dct_linear : forall k b N x (mX mY mZ : mem CC) v w (a c : R),
  dct_length N -> dct_history b (Some N) mX -> dct_history b (Some N) mY -> dct_history b (Some N) mZ -> ~ dct_own b (fst x) ->
  holds mX x N (fun i => rc (v i)) -> holds mY x N (fun i => rc (w i)) -> holds mZ x N (fun i => rc (a * v i + c * w i)%R) ->
  exists mX' mY' mZ' v' w', Outcome (dct_run b N k x) mX mX' /\ Outcome (dct_run b N k x) mY mY' /\ Outcome (dct_run b N k x) mZ mZ' /\
    holds mX' x N (fun i => rc (v' i)) /\ holds mY' x N (fun i => rc (w' i)) /\ holds mZ' x N (fun i => rc (a * v' i + c * w' i)%R).
Proof. exact dct_linear. Qed.
Print Assumptions C29_dct_linear.

(** C07, C25: in any arithmetic a DCT has defined behaviour in every schedule, accesses only x and the
    object, and of the object changes only the work areas b+5, b+6 *)
Theorem C07_dct_safety : forall (Op : Ops) b N k x (m : mem C) X,
  dct_length N -> dct_history b (Some N) m -> ~ dct_own b (fst x) -> holds m x N X ->
  (exists m', Outcome (dct_run b N k x) m m' /\ (forall l, ~ inR x N l -> ~ dct_own b (fst l) -> m' l = m l) /\
     (forall l, b <= fst l <= b + 4 -> m' l = m l)) /\
  accesses_only (dct_run b N k x) m (fun l => inR x N l \/ dct_own b (fst l)).
Proof. exact @dct_safety. Qed.
Print Assumptions C07_dct_safety.
(** setup: every length below 2^30, any history *)
Theorem C07_dct_setup_safety : forall (Op : Ops) b N o (m : mem C), (Z.of_nat N < 2 ^ 30)%Z -> dct_history b o m ->
  (exists m', Outcome (dct_setup b N) m m' /\ (forall l, ~ dct_own b (fst l) -> m' l = m l)) /\
  accesses_only (dct_setup b N) m (fun l => dct_own b (fst l)).
Proof. exact @dct_setup_safety. Qed.
Print Assumptions C07_dct_setup_safety.
(** C08, C09, C24: the result is a function of N, the method and the input *)
Theorem C09_dct_deterministic : forall (Op : Ops) N k, dct_length N ->
  exists F : (nat -> C) -> nat -> C, forall b x (m : mem C) X,
    dct_history b (Some N) m -> ~ dct_own b (fst x) -> holds m x N X ->
    exists m', Outcome (dct_run b N k x) m m' /\ holds m' x N (F X).
Proof. exact @dct_deterministic. Qed.
Print Assumptions C09_dct_deterministic.
(** C10 *)
Theorem C10_dct_no_data_race : forall (Op : Ops) b N k x (m : mem C) X,
  dct_length N -> dct_history b (Some N) m -> ~ dct_own b (fst x) -> holds m x N X ->
  forall n T m1, call_reach (dct_run b N k x) m n T m1 -> forall i j, i < n -> j < n -> i <> j -> ~ racing (T i) (T j).
Proof. exact @dct_no_race. Qed.
Print Assumptions C10_dct_no_data_race.

(** the hypotheses are met *)
Theorem dct_hypotheses_met : forall (Op : Ops) b N x X, dct_length N -> ~ dct_own b (fst x) ->
  exists m : mem C, dct_history b (Some N) m /\ holds m x N X.
Proof. exact @dct_inhabited. Qed.
Theorem dct_lengths : forall N, real_length N -> (Z.of_nat N < 2 ^ 30)%Z -> dct_length N.
Proof. exact dct_lengths_ok. Qed.
