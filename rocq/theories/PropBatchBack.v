(** * C63: a two-dimensional transform and back *)

From Coq Require Import Reals List Arith ZArith Bool Lia Lra.
From Verif Require Import Scalar RealOps Spec DftFacts Mem MemFacts Omp Lanes Stage Object Engine ApiSpec FactorFacts
  ModelApi History ApiFacts ApiExact Footprint ComplexThms PropComplex PropBatch PropImage.
Import ListNotations.

(** one batch keeps the histories of both objects (of the only object, if both passes use the same one) *)
Lemma pass b b' N P k x R (m : mem CC) X : valid_length N -> one_or_two b N b' P -> fft_history b (Some N) m -> fft_history b' (Some P) m ->
  ~ fft_own b (fst x) -> ~ fft_own b' (fst x) -> (forall r c, r < R -> c < N -> m (x +! (r * N + c)) = Val (X r c)) ->
  exists m', batch b N k x R m m' /\ (forall r c, r < R -> c < N -> m' (x +! (r * N + c)) = Val (transform k N (X r) c)) /\
    fft_history b (Some N) m' /\ fft_history b' (Some P) m'.
Proof.
  intros HN Hown Hh Hh' Hx Hx' HX. assert (HNp : 0 < N) by (unfold valid_length in HN; lia).
  destruct (C63_batch b N k x R m _ HN Hh Hx (holds_rows m x R N X HNp HX)) as (m' & B & Rr & F & H).
  exists m'. split; [exact B|]. split; [|split; [exact H|]].
  - intros r c Hr Hc. rewrite <- padd_padd. rewrite (Rr r Hr c Hc). f_equal. apply transform_ext. intros i Hi. apply row_ext. exact Hi.
  - destruct Hown as [[<- <-]|Hown]; [exact H|]. eapply h_other; [exact Hh'|]. intros l Hl. apply F; [|intros Q; exact (Hown _ (conj Q Hl))].
    intros (j & _ & ->). apply Hx'. exact Hl.
Qed.
Lemma one_or_two_sym b N b' P : one_or_two b N b' P -> one_or_two b' P b N.
Proof. intros [[-> ->]|H]; [left; auto|right]. intros d [A B]. apply (H d). auto. Qed.

(** rows, transposition, columns with k1, then columns, transposition, rows with k2 give the array back; the objects may be one and the same,
    and the client may do anything in between that leaves the objects' buffers and the intermediate result alone *)
Theorem C63_two_dimensions_round_trip : forall k1 k2 b b' N P x y w (m : mem CC) X,
  undoes k1 k2 = true -> valid_length N -> valid_length P -> fft_history b (Some N) m -> fft_history b' (Some P) m ->
  one_or_two b N b' P -> (forall p, In p [x; y; w] -> ~ fft_own b (fst p) /\ ~ fft_own b' (fst p)) ->
  holds m x (P * N) (fun i => X (i / N) (i mod N)) ->
  let buffers l := fft_own b (fst l) \/ fft_own b' (fst l) in
  (* rows *)
  exists m1 Y, batch b N k1 x P m m1 /\ (forall r c, r < P -> c < N -> m1 (x +! (r * N + c)) = Val (Y r c)) /\
    (* the client transposes x into y *)
    forall m2, (forall l, buffers l -> m2 l = m1 l) -> (forall r c, r < P -> c < N -> m2 (y +! (c * P + r)) = Val (Y r c)) ->
    (* columns: the two-dimensional spectrum *)
    exists m3 S, batch b' P k1 y N m2 m3 /\ (forall r c, r < P -> c < N -> m3 (y +! (c * P + r)) = Val (S r c)) /\
      (forall r c, r < P -> c < N -> S r c = @cscal ROps (factor (meth_scaling k1) P * factor (meth_scaling k1) N)%R (dft2 (meth_inv k1) P N X r c)) /\
      (* the client does other things *)
      forall m4, (forall l, buffers l -> m4 l = m3 l) -> (forall r c, r < P -> c < N -> m4 (y +! (c * P + r)) = Val (S r c)) ->
      (* columns back *)
      exists m5 T, batch b' P k2 y N m4 m5 /\ (forall r c, r < P -> c < N -> m5 (y +! (c * P + r)) = Val (T r c)) /\
        (* the client transposes y into w *)
        forall m6, (forall l, buffers l -> m6 l = m5 l) -> (forall r c, r < P -> c < N -> m6 (w +! (r * N + c)) = Val (T r c)) ->
        (* rows back *)
        exists m7, batch b N k2 w P m6 m7 /\ holds m7 w (P * N) (fun i => X (i / N) (i mod N)).
Proof.
  intros k1 k2 b b' N P x y w m X Hu HN HP Hh Hh' Hown Hq HX buffers.
  assert (HNp : 0 < N) by (unfold valid_length in HN; lia). assert (HPp : 0 < P) by (unfold valid_length in HP; lia).
  destruct (Hq x ltac:(cbn; auto)) as [Qx Qx']. destruct (Hq y ltac:(cbn; auto)) as [Qy Qy']. destruct (Hq w ltac:(cbn; auto)) as [Qw Qw']. clear Hq.
  pose proof (one_or_two_sym _ _ _ _ Hown) as Hown'.
  assert (keep : forall (m m' : mem CC), (forall l, buffers l -> m' l = m l) -> fft_history b (Some N) m -> fft_history b' (Some P) m ->
    fft_history b (Some N) m' /\ fft_history b' (Some P) m').
  { intros q q' F A B. split; [eapply h_other; [exact A|]|eapply h_other; [exact B|]]; intros l Hl; apply F; unfold buffers; auto. }
  destruct (pass b b' N P k1 x P m X HN Hown Hh Hh' Qx Qx') as (m1 & B1 & R1 & A1 & A1').
  { intros r c Hr Hc. rewrite HX by nia. rewrite row_ext by exact Hc. reflexivity. }
  exists m1, (fun r c => transform k1 N (X r) c). split; [exact B1|]. split; [exact R1|]. intros m2 F2 H2.
  destruct (keep _ _ F2 A1 A1') as [A2 A2'].
  destruct (pass b' b P N k1 y N m2 (fun c r => transform k1 N (X r) c) HP Hown' A2' A2 Qy' Qy) as (m3 & B3 & R3 & A3' & A3).
  { intros c r Hc Hr. apply H2; auto. }
  exists m3, (fun r c => transform k1 P (fun r' => transform k1 N (X r') c) r). split; [exact B3|]. split; [intros r c Hr Hc; apply (R3 c r Hc Hr)|].
  split; [intros r c _ _; apply dft2_transform|]. intros m4 F4 H4.
  destruct (keep _ _ F4 A3 A3') as [A4 A4'].
  destruct (pass b' b P N k2 y N m4 (fun c r => transform k1 P (fun r' => transform k1 N (X r') c) r) HP Hown' A4' A4 Qy' Qy) as (m5 & B5 & R5 & A5' & A5).
  { intros c r Hc Hr. apply H4; auto. }
  exists m5, (fun r c => transform k1 N (X r) c). split; [exact B5|]. split.
  { intros r c Hr Hc. rewrite (R5 c r Hc Hr). f_equal. exact (transform_inverse k1 k2 P (fun r' => transform k1 N (X r') c) r Hu HPp Hr). }
  intros m6 F6 H6. destruct (keep _ _ F6 A5 A5') as [A6 A6'].
  destruct (pass b b' N P k2 w P m6 (fun r c => transform k1 N (X r) c) HN Hown A6 A6' Qw Qw' H6) as (m7 & B7 & R7 & _).
  exists m7. split; [exact B7|]. apply holds_rows; [exact HNp|]. intros r c Hr Hc. rewrite (R7 r c Hr Hc). f_equal.
  exact (transform_inverse k1 k2 N (X r) c Hu HNp Hc).
Qed.
Print Assumptions C63_two_dimensions_round_trip.

(** the hypotheses are met: 16 rows of 16 elements, one object (two objects: C63_hypotheses_met) *)
Example C63_round_trip_hypotheses_met : forall b (X : nat -> nat -> CC), exists (m : mem CC),
  undoes fwd0 invn = true /\ valid_length 16 /\ fft_history b (Some 16) m /\ one_or_two b 16 b 16 /\
  (forall p, In p [(b + 8, 0); (b + 9, 0); (b + 10, 0)] -> ~ fft_own b (fst p) /\ ~ fft_own b (fst p)) /\
  holds m (b + 8, 0) (16 * 16) (fun i => X (i / 16) (i mod 16)).
Proof.
  intros b X. assert (Hx : ~ fft_own b (b + 8)) by (unfold fft_own; lia).
  destruct (PropComplex.complex_hypotheses_met ROps b 16 (b + 8, 0) (fun _ => (0, 0)%R) Hx) as (m1 & H1 & _).
  exists (fun l : loc => if fst l <=? b + 3 then m1 l else Val (X (snd l / 16) (snd l mod 16))).
  split; [reflexivity|]. split; [apply PropComplex.valid_lengths; lia|]. split; [|split; [left; auto|split]].
  - eapply h_other; [exact H1|]. intros l Hl. unfold fft_own in Hl. rewrite (proj2 (Nat.leb_le _ _)) by lia. reflexivity.
  - intros p Hp. unfold fft_own. cbn [In] in Hp. repeat (destruct Hp as [<-|Hp]; [cbn [fst]; split; lia|]). destruct Hp.
  - intros i Hi. unfold padd. cbn [fst snd]. rewrite (proj2 (Nat.leb_gt _ _)) by lia. reflexivity.
Qed.
