(** * C61 for two-dimensional transforms: the energy of the spectrum of an array *)

From Coq Require Import Reals List Arith ZArith Bool Lia Lra.
From Verif Require Import Scalar RealOps Spec DftFacts Mem MemFacts Omp Lanes Stage Object Engine ApiSpec FactorFacts
  ModelApi History ApiFacts ApiExact Footprint ComplexThms PropComplex PropParseval PropBatch PropImage PropBatchBack.
Import ListNotations.

(** the energy of an array of P rows and N columns *)
Definition energy2 (P N : nat) (A : nat -> nat -> CC) : R := rsum P (fun r => rsum N (fun c => cnorm2 (A r c))).

Lemma energy_rows k P N A : 0 < N -> energy2 P N (fun r c => transform k N (A r) c) = (gain k N * energy2 P N A)%R.
Proof.
  intros HN. unfold energy2. rewrite <- rsum_mul. apply rsum_ext. intros r _. apply (transform_power k N (A r) HN).
Qed.
Lemma energy_columns k P N A : 0 < P -> energy2 P N (fun r c => transform k P (fun r' => A r' c) r) = (gain k P * energy2 P N A)%R.
Proof.
  intros HP. unfold energy2. rewrite rsum_swap. rewrite (rsum_swap P N (fun r c => cnorm2 (A r c))). rewrite <- rsum_mul.
  apply rsum_ext. intros c _. apply (transform_power k P (fun r' => A r' c) HP).
Qed.

(** rows, transposition, columns: the energy of the result is the energy of the array times the gains of the two transforms
    (gain k n: 1 for the unitary methods, n for the unscaled, 1/n for those scaled by the length) *)
Theorem C61_two_dimensions_energy : forall k b b' N P x y (m : mem CC) X,
  valid_length N -> valid_length P -> fft_history b (Some N) m -> fft_history b' (Some P) m ->
  one_or_two b N b' P -> (forall p, In p [x; y] -> ~ fft_own b (fst p) /\ ~ fft_own b' (fst p)) ->
  holds m x (P * N) (fun i => X (i / N) (i mod N)) ->
  exists m1 Y, batch b N k x P m m1 /\ (forall r c, r < P -> c < N -> m1 (x +! (r * N + c)) = Val (Y r c)) /\
    forall m2, (forall l, fft_own b (fst l) \/ fft_own b' (fst l) -> m2 l = m1 l) -> (forall r c, r < P -> c < N -> m2 (y +! (c * P + r)) = Val (Y r c)) ->
    exists m3 S, batch b' P k y N m2 m3 /\ (forall r c, r < P -> c < N -> m3 (y +! (c * P + r)) = Val (S r c)) /\
      energy2 P N S = (gain k P * gain k N * energy2 P N X)%R.
Proof.
  intros k b b' N P x y m X HN HP Hh Hh' Hown Hq HX.
  assert (HNp : 0 < N) by (unfold valid_length in HN; lia). assert (HPp : 0 < P) by (unfold valid_length in HP; lia).
  destruct (Hq x ltac:(cbn; auto)) as [Qx Qx']. destruct (Hq y ltac:(cbn; auto)) as [Qy Qy']. clear Hq.
  destruct (pass b b' N P k x P m X HN Hown Hh Hh' Qx Qx') as (m1 & B1 & R1 & A1 & A1').
  { intros r c Hr Hc. rewrite HX by nia. rewrite row_ext by exact Hc. reflexivity. }
  exists m1, (fun r c => transform k N (X r) c). split; [exact B1|]. split; [exact R1|]. intros m2 F2 H2.
  assert (A2 : fft_history b (Some N) m2) by (eapply h_other; [exact A1|]; auto). assert (A2' : fft_history b' (Some P) m2) by (eapply h_other; [exact A1'|]; auto).
  destruct (pass b' b P N k y N m2 (fun c r => transform k N (X r) c) HP (one_or_two_sym _ _ _ _ Hown) A2' A2 Qy' Qy) as (m3 & B3 & R3 & _).
  { intros c r Hc Hr. apply H2; auto. }
  exists m3, (fun r c => transform k P (fun r' => transform k N (X r') c) r). split; [exact B3|]. split; [intros r c Hr Hc; apply (R3 c r Hc Hr)|].
  rewrite (energy_columns k P N (fun r c => transform k N (X r) c) HPp), energy_rows by exact HNp. ring.
Qed.
Print Assumptions C61_two_dimensions_energy.

(** the hypotheses are those of C63_two_dimensions; here for an array of 16 rows and 16 columns and one object *)
Example C61_two_dimensions_hypotheses_met : forall b (X : nat -> nat -> CC), exists (m : mem CC),
  valid_length 16 /\ fft_history b (Some 16) m /\ one_or_two b 16 b 16 /\
  (forall p, In p [(b + 8, 0); (b + 9, 0)] -> ~ fft_own b (fst p) /\ ~ fft_own b (fst p)) /\
  holds m (b + 8, 0) (16 * 16) (fun i => X (i / 16) (i mod 16)).
Proof.
  intros b X. destruct (C63_round_trip_hypotheses_met b X) as (m & _ & H1 & H2 & H3 & H4 & H5). exists m.
  split; [exact H1|]. split; [exact H2|]. split; [exact H3|]. split; [|exact H5]. intros p Hp. apply H4. cbn [In] in *. tauto.
Qed.
