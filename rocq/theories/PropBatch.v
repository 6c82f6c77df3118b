(** * C63: batches and two-dimensional transforms

    One object transforms the blocks of a longer array one after the other: call r works on the N elements from x + r*N on.
    Rows, a transposition made by the client, and columns give the two-dimensional DFT. *)

From Coq Require Import Reals List Arith ZArith Bool Lia Lra.
From Verif Require Import Scalar RealOps Spec DftFacts Mem MemFacts Omp Lanes Stage Object Engine ApiSpec FactorFacts
  ModelApi History ApiFacts ApiExact Footprint ComplexThms PropComplex.
Import ListNotations.

(** ** Specification *)
(** the calls  obj.k(x); obj.k(x + N); ...; obj.k(x + (R-1)*N)  lead from memory m to memory m' *)
Inductive batch {Op : Ops} (b N : nat) (k : meth) (x : ptr) : nat -> mem C -> mem C -> Prop :=
| batch_nil m : batch b N k x 0 m m
| batch_call R m m1 m2 : batch b N k x R m m1 -> Outcome (fft_run b N k (x +! R * N)) m1 m2 -> batch b N k x (S R) m m2.
(** two-dimensional DFT of an array of P rows and N columns, element (r, c) (W inv n j = exp(-+ 2 pi i j / n), see Spec.v) *)
Definition dft2 (inv : bool) (P N : nat) (X : nat -> nat -> CC) (r c : nat) : CC :=
  csum P (fun r' => csum N (fun c' => cmul (X r' c') (cmul (W inv P (r' * r)) (W inv N (c' * c))))).

Lemma off_inR x N R r l : r < R -> inR (x +! r * N) N l -> inR x (R * N) l.
Proof. intros Hr (i & Hi & ->). exists (r * N + i). split; [nia|]. apply padd_padd. Qed.

(** ** one object, R blocks, any arithmetic: every block becomes, bit for bit, what a single call of that method on any object of that
    length, anywhere in memory, makes of it *)
Lemma batch_any (Op : Ops) b N k x R (m : mem C) X :
  valid_length N -> fft_history b (Some N) m -> ~ fft_own b (fst x) -> holds m x (R * N) X ->
  exists m', batch b N k x R m m' /\
    (forall r, r < R -> holds m' (x +! r * N) N (fft0_F N k (fun i => X (r * N + i)))) /\
    (forall l, ~ inR x (R * N) l -> ~ fft_own b (fst l) -> m' l = m l) /\ fft_history b (Some N) m'.
Proof.
  intros HN Hh Hx. revert X. induction R as [|R IH]; intros X HX.
  - exists m. split; [constructor|]. split; [intros r Hr; lia|]. split; [auto|exact Hh].
  - destruct (IH X) as (m1 & B1 & R1 & F1 & H1); [intros i Hi; apply HX; nia|].
    assert (HXR : holds m1 (x +! R * N) N (fun i => X (R * N + i))).
    { intros i Hi. rewrite padd_padd. rewrite F1; [apply HX; nia| |exact Hx]. intros (j & Hj & E). apply padd_inj in E. lia. }
    destruct (fft_call_any b N k (x +! R * N) m1 _ HN H1 Hx HXR) as (m2 & O2 & R2 & F2 & H2).
    exists m2. split; [econstructor; eauto|].
    assert (Hb : forall l, ~ fft_own b (fst l) -> ~ inR ((b + 3)%nat, 0) N l).
    { intros l Hl (j & _ & E). apply Hl. rewrite E. cbn. unfold fft_own. lia. }
    split; [|split; [|exact H2]].
    + intros r Hr. destruct (Nat.eq_dec r R) as [->|Hne]; [exact R2|]. intros i Hi. rewrite F2; [apply (R1 r ltac:(lia) i Hi)| |apply Hb; exact Hx].
      intros (j & Hj & E). rewrite !padd_padd in E. apply padd_inj in E. nia.
    + intros l Hl Ho. rewrite F2; [apply F1; [|exact Ho]|intros C; apply Hl; eapply off_inR; [|exact C]; lia|apply Hb; exact Ho].
      intros (j & Hj & ->). apply Hl. exists j. split; [nia|reflexivity].
Qed.
Theorem C63_batch_any_arithmetic : forall (Op : Ops) N k, valid_length N -> exists F : (nat -> C) -> nat -> C,
  (forall b x (m : mem C) X, fft_history b (Some N) m -> ~ fft_own b (fst x) -> holds m x N X ->
     exists m', Outcome (fft_run b N k x) m m' /\ holds m' x N (F X)) /\
  (forall b x R (m : mem C) X, fft_history b (Some N) m -> ~ fft_own b (fst x) -> holds m x (R * N) X ->
     exists m', batch b N k x R m m' /\ (forall r, r < R -> holds m' (x +! r * N) N (F (fun i => X (r * N + i)))) /\
       (forall l, ~ inR x (R * N) l -> ~ fft_own b (fst l) -> m' l = m l) /\ fft_history b (Some N) m').
Proof.
  intros Op N k HN. exists (fft0_F N k). split.
  - intros b x m X Hh Hx HX. destruct (fft_call_any b N k x m X HN Hh Hx HX) as (m' & O & R & _). exists m'. auto.
  - intros b x R m X Hh Hx HX. apply batch_any; auto.
Qed.
Print Assumptions C63_batch_any_arithmetic.

(** ** exact arithmetic *)
Theorem C63_batch : forall b N k x R (m : mem CC) X,
  valid_length N -> fft_history b (Some N) m -> ~ fft_own b (fst x) -> holds m x (R * N) X ->
  exists m', batch b N k x R m m' /\
    (forall r, r < R -> holds m' (x +! r * N) N (transform k N (fun i => X (r * N + i)))) /\
    (forall l, ~ inR x (R * N) l -> ~ fft_own b (fst l) -> m' l = m l) /\ fft_history b (Some N) m'.
Proof.
  intros b N k x R m X HN Hh Hx HX. destruct (batch_any ROps b N k x R m X HN Hh Hx HX) as (m' & B & K & F & H).
  exists m'. split; [exact B|]. split; [|auto]. intros r Hr i Hi. rewrite (K r Hr i Hi). f_equal. apply fft0_F_exact; auto.
Qed.
Print Assumptions C63_batch.

(** transforming the rows and then the columns is the two-dimensional DFT *)
Lemma dft2_transform k P N (X : nat -> nat -> CC) r c : transform k P (fun r' => transform k N (X r') c) r =
  @cscal ROps (factor (meth_scaling k) P * factor (meth_scaling k) N)%R (dft2 (meth_inv k) P N X r c).
Proof.
  set (f := factor (meth_scaling k) P). set (g := factor (meth_scaling k) N).
  assert (E : forall r', r' < P -> cmul (transform k N (X r') c) (W (meth_inv k) P (r' * r))
    = cmul (csum N (fun c' => cmul (X r' c') (cmul (W (meth_inv k) P (r' * r)) (W (meth_inv k) N (c' * c))))) (rc g)).
  { intros r' Hr'. unfold transform, DFT. fold g.
    rewrite (csum_ext N (fun c' => cmul (X r' c') (cmul (W (meth_inv k) P (r' * r)) (W (meth_inv k) N (c' * c)))) (fun j => cmul (cmul (X r' j) (W (meth_inv k) N (j * c))) (W (meth_inv k) P (r' * r)))).
    - rewrite csum_mul_r. generalize (csum N (fun j => cmul (X r' j) (W (meth_inv k) N (j * c)))), (W (meth_inv k) P (r' * r)), g. intros z t h. csimp; ring.
    - intros c' _. ring. }
  unfold transform at 1. unfold DFT at 1. fold f. rewrite (csum_ext P _ _ E), csum_mul_r. fold (dft2 (meth_inv k) P N X r c).
  generalize (dft2 (meth_inv k) P N X r c), f, g. intros z u v. csimp; ring.
Qed.

(** the two objects are different, or, for square arrays, the same *)
Definition one_or_two (b N b' P : nat) : Prop := (b = b' /\ N = P) \/ forall d, ~ (fft_own b d /\ fft_own b' d).
(** ** rows, transposition by the client, columns.  The first object has length N (the number of columns), the second length P
    (the number of rows); Y is what the first batch left; the client stores it column by column in y. *)
Theorem C63_two_dimensions : forall k b b' N P x y (m : mem CC) X,
  valid_length N -> valid_length P -> fft_history b (Some N) m -> fft_history b' (Some P) m ->
  one_or_two b N b' P -> ~ fft_own b (fst x) -> ~ fft_own b' (fst x) -> ~ fft_own b' (fst y) ->
  holds m x (P * N) (fun i => X (i / N) (i mod N)) ->
  exists m1 Y, batch b N k x P m m1 /\ (forall r c, r < P -> c < N -> m1 (x +! (r * N + c)) = Val (Y r c)) /\
    forall m2, (forall l, fft_own b' (fst l) -> m2 l = m1 l) -> (forall r c, r < P -> c < N -> m2 (y +! (c * P + r)) = Val (Y r c)) ->
    exists m3, batch b' P k y N m2 m3 /\
      forall r c, r < P -> c < N -> m3 (y +! (c * P + r)) = Val (@cscal ROps (factor (meth_scaling k) P * factor (meth_scaling k) N)%R (dft2 (meth_inv k) P N X r c)).
Proof.
  intros k b b' N P x y m X HN HP Hh Hh' Hown Hx Hx' Hy' HX.
  assert (HNp : 0 < N) by (unfold valid_length in HN; lia). assert (HPp : 0 < P) by (unfold valid_length in HP; lia).
  destruct (C63_batch b N k x P m _ HN Hh Hx HX) as (m1 & B1 & R1 & F1 & H1).
  exists m1, (fun r c => transform k N (X r) c). split; [exact B1|]. split.
  { intros r c Hr Hc. rewrite <- padd_padd. rewrite (R1 r Hr c Hc). f_equal. apply transform_ext. intros i Hi. f_equal.
    - rewrite (Nat.add_comm (r * N)), Nat.div_add, Nat.div_small by lia. reflexivity.
    - rewrite (Nat.add_comm (r * N)), Nat.mod_add, Nat.mod_small by lia. reflexivity. }
  intros m2 Hf HY.
  assert (Hm2 : fft_history b' (Some P) m2).
  { destruct Hown as [[<- <-]|Hown]; [eapply h_other; [exact H1|exact Hf]|].
    eapply h_other; [exact Hh'|]. intros l Hl. rewrite Hf by exact Hl. apply F1; [|intros C; exact (Hown _ (conj C Hl))].
    intros (j & _ & ->). apply Hx'. exact Hl. }
  destruct (C63_batch b' P k y N m2 (fun i => transform k N (X (i mod P)) (i / P)) HP Hm2 Hy') as (m3 & B3 & R3 & _).
  { intros i Hi. pose proof (Nat.div_mod i P ltac:(lia)) as E. rewrite E at 1. rewrite (Nat.mul_comm P). apply HY; [apply Nat.mod_upper_bound; lia|].
    apply Nat.div_lt_upper_bound; lia. }
  exists m3. split; [exact B3|]. intros r c Hr Hc. rewrite <- padd_padd. rewrite (R3 c Hc r Hr). f_equal.
  rewrite <- dft2_transform. apply transform_ext. intros r' Hr'.
  rewrite (Nat.add_comm (c * P) r'), Nat.mod_add, Nat.mod_small, Nat.div_add, Nat.div_small by lia. reflexivity.
Qed.
Print Assumptions C63_two_dimensions.

(** ** The hypotheses are met: 12 rows and 16 columns, two objects, any data *)
Example C63_hypotheses_met : forall b (X : nat -> nat -> CC), exists (m : mem CC),
  let x := (b + 8, 0) in let y := (b + 9, 0) in
  valid_length 16 /\ valid_length 12 /\ fft_history b (Some 16) m /\ fft_history (b + 4) (Some 12) m /\
  one_or_two b 16 (b + 4) 12 /\ ~ fft_own b (fst x) /\ ~ fft_own (b + 4) (fst x) /\ ~ fft_own (b + 4) (fst y) /\
  holds m x (12 * 16) (fun i => X (i / 16) (i mod 16)).
Proof.
  intros b X.
  assert (Hx : ~ fft_own b (b + 8)) by (unfold fft_own; lia). assert (Hx' : ~ fft_own (b + 4) (b + 8)) by (unfold fft_own; lia).
  destruct (PropComplex.complex_hypotheses_met ROps b 16 (b + 8, 0) (fun _ => (0, 0)%R) Hx) as (m1 & H1 & _).
  destruct (PropComplex.complex_hypotheses_met ROps (b + 4) 12 (b + 8, 0) (fun _ => (0, 0)%R) Hx') as (m2 & H2 & _).
  exists (fun l : loc => if fst l <=? b + 3 then m1 l else if fst l <=? b + 7 then m2 l else Val (X (snd l / 16) (snd l mod 16))).
  cbv zeta. split; [apply PropComplex.valid_lengths; lia|]. split; [apply PropComplex.valid_lengths; lia|].
  split; [eapply h_other; [exact H1|]|split; [eapply h_other; [exact H2|]|]].
  - intros l Hl. unfold fft_own in Hl. rewrite (proj2 (Nat.leb_le _ _)) by lia. reflexivity.
  - intros l Hl. unfold fft_own in Hl. rewrite (proj2 (Nat.leb_gt _ _)) by lia. rewrite (proj2 (Nat.leb_le _ _)) by lia. reflexivity.
  - split; [right; unfold fft_own; intros d; lia|]. split; [exact Hx|]. split; [exact Hx'|]. split; [unfold fft_own; cbn [fst]; lia|].
    intros i Hi. unfold padd. cbn [fst snd]. rewrite !(proj2 (Nat.leb_gt _ _)) by lia. reflexivity.
Qed.
