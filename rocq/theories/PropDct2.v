(** * C70: batches and two-dimensional discrete cosine transforms with RealDCT

    One object transforms the blocks of a longer array one after the other, in place; rows, a transposition made by the client, and
    columns give the two-dimensional transform. *)

From Coq Require Import Reals List Arith ZArith Bool Lia Lra.
From Verif Require Import Scalar RealOps Spec DftFacts Norm Mem MemFacts Omp Lanes Stage Object Engine
  ModelApi History ApiFacts Footprint ModelReal RealRun RealSpec RealThms DctRun DctThms PropReal PropDct PropBatch.
Import ListNotations.

(** ** Specification *)
(** the calls  obj.k(x); obj.k(x + N); ...; obj.k(x + (R-1)*N)  of a RealDCT object *)
Inductive dbatch {Op : Ops} (b N : nat) (k : dmeth) (x : ptr) : nat -> mem C -> mem C -> Prop :=
| dbatch_nil m : dbatch b N k x 0 m m
| dbatch_call R m m1 m2 : dbatch b N k x R m m1 -> Outcome (dct_run b N k (x +! R * N)) m1 m2 -> dbatch b N k x (S R) m m2.
(** what element j of the input contributes to element i of the result, per unit *)
Definition dkernel (k : dmeth) (N i j : nat) : R :=
  (let two j := if (j =? 0)%nat then 1 else 2 in
   match k with
   | Dfwd0 => cos (PI * INR i * (2 * INR j + 1) / (2 * INR N))
   | Dfwd | Dfwdn => cos (PI * INR i * (2 * INR j + 1) / (2 * INR N)) / INR N
   | Dinv | Dinv0 => two j * cos (PI * INR j * (2 * INR i + 1) / (2 * INR N))
   | Dinvn => two j * cos (PI * INR j * (2 * INR i + 1) / (2 * INR N)) / INR N
   end)%R.
Definition dct2d (k : dmeth) (P N : nat) (v : nat -> nat -> R) (r c : nat) : R :=
  rsum P (fun r' => rsum N (fun c' => v r' c' * dkernel k P r r' * dkernel k N c c')%R).

Lemma rsum_first N f : 0 < N -> rsum N f = (f 0%nat + rsum (N - 1) (fun j => f (S j)))%R.
Proof. intros HN. replace N with (1 + (N - 1)) at 1 by lia. rewrite rsum_app. cbn [rsum Nat.add]. ring. Qed.
Lemma dct_spec_kernel k N v i : 0 < N -> dct_spec k N v i = rsum N (fun j => v j * dkernel k N i j)%R.
Proof.
  intros HN. assert (E : forall f g a, (forall j, j < N -> f j = (a * g j)%R) -> rsum N f = (a * rsum N g)%R) by (intros f g a H; rewrite <- rsum_mul; apply rsum_ext; exact H).
  assert (E3 : DCT3 N v i = rsum N (fun j => v j * dkernel Dinv N i j)%R).
  { unfold DCT3. rewrite (rsum_first N) by exact HN. f_equal.
    - unfold dkernel. cbn [Nat.eqb]. replace (PI * INR 0 * (2 * INR i + 1) / (2 * INR N))%R with 0%R by (cbn [INR]; unfold Rdiv; ring). rewrite cos_0. ring.
    - rewrite <- rsum_mul. apply rsum_ext. intros j _. unfold dkernel. cbn [Nat.eqb]. ring. }
  assert (E2 : DCT2 N v i = rsum N (fun j => v j * dkernel Dfwd0 N i j)%R) by reflexivity.
  destruct k; cbn [dct_spec]; rewrite ?E2, ?E3; try reflexivity; unfold Rdiv; rewrite Rmult_comm; symmetry; apply E; intros j _; unfold dkernel; unfold Rdiv; ring.
Qed.
Lemma dct2d_rows k P N v r c : 0 < P -> 0 < N -> dct_spec k P (fun r' => dct_spec k N (v r') c) r = dct2d k P N v r c.
Proof.
  intros HP HN. rewrite dct_spec_kernel by exact HP. unfold dct2d. apply rsum_ext. intros r' _. rewrite dct_spec_kernel by exact HN.
  rewrite Rmult_comm, <- rsum_mul. apply rsum_ext. intros c' _. ring.
Qed.

(** ** the batch, any arithmetic *)
Lemma dbatch_any (Op : Ops) b N k x R (m : mem C) X :
  dct_length N -> dct_history b (Some N) m -> ~ dct_own b (fst x) -> holds m x (R * N) X ->
  exists m', dbatch b N k x R m m' /\
    (forall r, r < R -> holds m' (x +! r * N) N (dct_res N k (fun i => X (r * N + i)))) /\
    (forall l, ~ inR x (R * N) l -> ~ dct_own b (fst l) -> m' l = m l) /\ dct_history b (Some N) m'.
Proof.
  intros HN Hh Hx. induction R as [|R IH]; intros HX.
  - exists m. split; [constructor|]. split; [intros r Hr; lia|]. split; [auto|exact Hh].
  - destruct IH as (m1 & B1 & R1 & F1 & H1); [intros i Hi; apply HX; nia|].
    assert (HXR : holds m1 (x +! R * N) N (fun i => X (R * N + i))).
    { intros i Hi. rewrite padd_padd. rewrite F1; [apply HX; nia| |exact Hx]. intros (j & Hj & E). apply padd_inj in E. lia. }
    destruct (dct_call_ok b N k (x +! R * N) m1 _ HN H1 Hx HXR) as (m2 & O2 & R2 & F2 & _ & H2 & _).
    exists m2. split; [econstructor; eauto|]. split; [|split; [|exact H2]].
    + intros r Hr. destruct (Nat.eq_dec r R) as [->|Hne]; [exact R2|]. intros i Hi. rewrite F2; [apply (R1 r ltac:(lia) i Hi)| |exact Hx].
      intros (j & Hj & E). rewrite !padd_padd in E. apply padd_inj in E. nia.
    + intros l Hl Ho. rewrite F2; [apply F1; [|exact Ho]|intros Q; apply Hl; eapply off_inR; [|exact Q]; lia|exact Ho].
      intros (j & Hj & ->). apply Hl. exists j. split; [nia|reflexivity].
Qed.
Theorem C70_dct_batch_any_arithmetic : forall (Op : Ops) N k, dct_length N -> exists F : (nat -> C) -> nat -> C,
  (forall b x (m : mem C) X, dct_history b (Some N) m -> ~ dct_own b (fst x) -> holds m x N X ->
     exists m', Outcome (dct_run b N k x) m m' /\ holds m' x N (F X)) /\
  (forall b x R (m : mem C) X, dct_history b (Some N) m -> ~ dct_own b (fst x) -> holds m x (R * N) X ->
     exists m', dbatch b N k x R m m' /\ (forall r, r < R -> holds m' (x +! r * N) N (F (fun i => X (r * N + i)))) /\
       (forall l, ~ inR x (R * N) l -> ~ dct_own b (fst l) -> m' l = m l) /\ dct_history b (Some N) m').
Proof.
  intros Op N k HN. exists (dct_res N k). split.
  - intros b x m X Hh Hx HX. destruct (dct_call_ok b N k x m X HN Hh Hx HX) as (m' & O & R & _). exists m'. auto.
  - intros b x R m X Hh Hx HX. apply dbatch_any; auto.
Qed.
Print Assumptions C70_dct_batch_any_arithmetic.

(** ** the two-dimensional transform.  The objects are two different ones, or, for square images, the same. *)
Definition objects_ok (b N b' P : nat) : Prop := (b = b' /\ N = P) \/ forall d, ~ (dct_own b d /\ dct_own b' d).
Lemma dct2d_full : forall k b b' N P x y (m : mem CC) v,
  dct_length N -> dct_length P -> dct_history b (Some N) m -> dct_history b' (Some P) m -> objects_ok b N b' P ->
  ~ dct_own b (fst x) -> ~ dct_own b' (fst x) -> ~ dct_own b (fst y) -> ~ dct_own b' (fst y) ->
  holds m x (P * N) (fun i => rc (v (i / N) (i mod N))) ->
  exists m1 Y, dbatch b N k x P m m1 /\ (forall r c, r < P -> c < N -> m1 (x +! (r * N + c)) = Val (rc (Y r c))) /\
    forall m2, (forall l, dct_own b (fst l) \/ dct_own b' (fst l) -> m2 l = m1 l) -> (forall r c, r < P -> c < N -> m2 (y +! (c * P + r)) = Val (rc (Y r c))) ->
    exists m3, dbatch b' P k y N m2 m3 /\
      (forall r c, r < P -> c < N -> m3 (y +! (c * P + r)) = Val (rc (dct_spec k P (fun r' => dct_spec k N (v r') c) r))) /\
      dct_history b (Some N) m3 /\ dct_history b' (Some P) m3.
Proof.
  intros k b b' N P x y m v HN HP Hh Hh' Hown Hx Hx' Hy Hy' HX.
  assert (HNp : 0 < N) by (apply (real_length_pos N); apply HN). assert (HPp : 0 < P) by (apply (real_length_pos P); apply HP).
  destruct (dbatch_any ROps b N k x P m _ HN Hh Hx HX) as (m1 & B1 & R1 & F1 & H1).
  assert (H1' : dct_history b' (Some P) m1).
  { destruct Hown as [[<- <-]|Hown]; [exact H1|]. eapply h_other; [exact Hh'|]. intros l Hl. apply F1; [|intros Q; exact (Hown _ (conj Q Hl))].
    intros (j & _ & ->). apply Hx'. exact Hl. }
  exists m1, (fun r c => dct_spec k N (v r) c). split; [exact B1|]. split.
  { intros r c Hr Hc. rewrite <- padd_padd. rewrite (R1 r Hr c Hc). f_equal. rewrite DctExact.dct_res_exact by auto. f_equal. apply dct_spec_ext; [exact HNp|]. intros i Hi.
    unfold DctExact.rv. cbn [fst rc]. rewrite (Nat.add_comm (r * N)), Nat.div_add, Nat.div_small, Nat.mod_add, Nat.mod_small by lia. reflexivity. }
  intros m2 Hf HY.
  assert (H2' : dct_history b' (Some P) m2) by (eapply h_other; [exact H1'|]; intros l Hl; apply Hf; right; exact Hl).
  assert (H2 : dct_history b (Some N) m2) by (eapply h_other; [exact H1|]; intros l Hl; apply Hf; left; exact Hl).
  destruct (dbatch_any ROps b' P k y N m2 (fun i => rc (dct_spec k N (v (i mod P)) (i / P))) HP H2' Hy') as (m3 & B3 & R3 & F3 & H3).
  { intros i Hi. pose proof (Nat.div_mod i P ltac:(lia)) as E. rewrite E at 1. rewrite (Nat.mul_comm P). apply HY; [apply Nat.mod_upper_bound; lia|].
    apply Nat.div_lt_upper_bound; lia. }
  exists m3. split; [exact B3|]. split; [|split; [|exact H3]].
  - intros r c Hr Hc. rewrite <- padd_padd. rewrite (R3 c Hc r Hr). f_equal. rewrite DctExact.dct_res_exact by auto. f_equal. apply dct_spec_ext; [exact HPp|]. intros r' Hr'.
    unfold DctExact.rv. cbn [fst rc]. rewrite (Nat.add_comm (c * P) r'), Nat.mod_add, Nat.mod_small, Nat.div_add, Nat.div_small by lia. reflexivity.
  - destruct Hown as [[<- <-]|Hown]; [exact H3|]. eapply h_other; [exact H2|]. intros l Hl. apply F3; [|intros Q; exact (Hown _ (conj Hl Q))].
    intros (j & _ & ->). apply Hy. exact Hl.
Qed.
Theorem C70_two_dimensional_dct : forall k b b' N P x y (m : mem CC) v,
  dct_length N -> dct_length P -> dct_history b (Some N) m -> dct_history b' (Some P) m -> objects_ok b N b' P ->
  ~ dct_own b (fst x) -> ~ dct_own b' (fst x) -> ~ dct_own b (fst y) -> ~ dct_own b' (fst y) ->
  holds m x (P * N) (fun i => rc (v (i / N) (i mod N))) ->
  (* rows *)
  exists m1 Y, dbatch b N k x P m m1 /\ (forall r c, r < P -> c < N -> m1 (x +! (r * N + c)) = Val (rc (Y r c))) /\
    (* the client transposes *)
    forall m2, (forall l, dct_own b (fst l) \/ dct_own b' (fst l) -> m2 l = m1 l) -> (forall r c, r < P -> c < N -> m2 (y +! (c * P + r)) = Val (rc (Y r c))) ->
    (* columns *)
    exists m3, dbatch b' P k y N m2 m3 /\ (forall r c, r < P -> c < N -> m3 (y +! (c * P + r)) = Val (rc (dct2d k P N v r c))).
Proof.
  intros k b b' N P x y m v HN HP Hh Hh' Hown Hx Hx' Hy Hy' HX.
  destruct (dct2d_full k b b' N P x y m v HN HP Hh Hh' Hown Hx Hx' Hy Hy' HX) as (m1 & Y & B1 & R1 & K).
  exists m1, Y. split; [exact B1|]. split; [exact R1|]. intros m2 Hf HY. destruct (K m2 Hf HY) as (m3 & B3 & R3 & _).
  exists m3. split; [exact B3|]. intros r c Hr Hc. rewrite (R3 r c Hr Hc). do 2 f_equal.
  apply dct2d_rows; [apply (real_length_pos P); apply HP|apply (real_length_pos N); apply HN].
Qed.
Print Assumptions C70_two_dimensional_dct.

(** ** there and back: columns of y with the matching method, the client transposes into w, rows *)
Theorem C70_dct_round_trip : forall k1 k2 b b' N P x y w (m : mem CC) v,
  In (k1, k2) [(Dfwd, Dinv); (Dfwd, Dinv0); (Dfwdn, Dinv); (Dfwdn, Dinv0); (Dfwd0, Dinvn);
    (Dinv, Dfwd); (Dinv, Dfwdn); (Dinv0, Dfwd); (Dinv0, Dfwdn); (Dinvn, Dfwd0)] ->
  dct_length N -> dct_length P -> dct_history b (Some N) m -> dct_history b' (Some P) m -> objects_ok b N b' P ->
  (forall p, In p [x; y; w] -> ~ dct_own b (fst p) /\ ~ dct_own b' (fst p)) ->
  holds m x (P * N) (fun i => rc (v (i / N) (i mod N))) ->
  exists m1 Y, dbatch b N k1 x P m m1 /\ (forall r c, r < P -> c < N -> m1 (x +! (r * N + c)) = Val (rc (Y r c))) /\
    forall m2, (forall l, dct_own b (fst l) \/ dct_own b' (fst l) -> m2 l = m1 l) -> (forall r c, r < P -> c < N -> m2 (y +! (c * P + r)) = Val (rc (Y r c))) ->
    exists m3 D, dbatch b' P k1 y N m2 m3 /\ (forall r c, r < P -> c < N -> m3 (y +! (c * P + r)) = Val (rc (D r c))) /\
      forall m4, (forall l, dct_own b (fst l) \/ dct_own b' (fst l) -> m4 l = m3 l) -> (forall r c, r < P -> c < N -> m4 (y +! (c * P + r)) = Val (rc (D r c))) ->
      exists m5 T, dbatch b' P k2 y N m4 m5 /\ (forall r c, r < P -> c < N -> m5 (y +! (c * P + r)) = Val (rc (T r c))) /\
        forall m6, (forall l, dct_own b (fst l) \/ dct_own b' (fst l) -> m6 l = m5 l) -> (forall r c, r < P -> c < N -> m6 (w +! (r * N + c)) = Val (rc (T r c))) ->
        exists m7, dbatch b N k2 w P m6 m7 /\ holds m7 w (P * N) (fun i => rc (v (i / N) (i mod N))).
Proof.
  intros k1 k2 b b' N P x y w m v Hk HN HP Hh Hh' Hown Hq HX.
  assert (HNp : 0 < N) by (apply (real_length_pos N); apply HN). assert (HPp : 0 < P) by (apply (real_length_pos P); apply HP).
  destruct (Hq x ltac:(cbn; auto)) as [Qx Qx']. destruct (Hq y ltac:(cbn; auto)) as [Qy Qy']. destruct (Hq w ltac:(cbn; auto)) as [Qw Qw']. clear Hq.
  destruct (dct2d_full k1 b b' N P x y m v HN HP Hh Hh' Hown Qx Qx' Qy Qy' HX) as (m1 & Y & B1 & R1 & K).
  exists m1, Y. split; [exact B1|]. split; [exact R1|]. intros m2 Hf HY. destruct (K m2 Hf HY) as (m3 & B3 & R3 & H3 & H3').
  eexists m3, _. split; [exact B3|]. split; [exact R3|]. intros m4 Hf4 HD.
  assert (H4 : dct_history b (Some N) m4) by (eapply h_other; [exact H3|]; intros l Hl; apply Hf4; left; exact Hl).
  assert (H4' : dct_history b' (Some P) m4) by (eapply h_other; [exact H3'|]; intros l Hl; apply Hf4; right; exact Hl).
  assert (Hown' : objects_ok b' P b N) by (destruct Hown as [[<- <-]|Ho]; [left; auto|right; intros d [Q1 Q2]; exact (Ho d (conj Q2 Q1))]).
  destruct (dct2d_full k2 b' b P N y w m4 (fun c r => dct_spec k1 P (fun r' => dct_spec k1 N (v r') c) r) HP HN H4' H4 Hown' Qy' Qy Qw' Qw) as (m5 & T & B5 & R5 & K5).
  { intros i Hi. pose proof (Nat.div_mod i P ltac:(lia)) as E. rewrite E at 1. rewrite (Nat.mul_comm P). apply HD; [apply Nat.mod_upper_bound; lia|].
    apply Nat.div_lt_upper_bound; lia. }
  exists m5, (fun r c => T c r). split; [exact B5|]. split; [intros r c Hr Hc; apply R5; auto|]. intros m6 Hf6 HT.
  destruct (K5 m6) as (m7 & B7 & R7 & _).
  { intros l Hl. apply Hf6. tauto. }
  { intros r c Hr Hc. apply HT; auto. }
  exists m7. split; [exact B7|]. intros i Hi. pose proof (Nat.div_mod i N ltac:(lia)) as E. rewrite E at 1. rewrite (Nat.mul_comm N).
  assert (Hr : i / N < P) by (apply Nat.div_lt_upper_bound; lia). assert (Hc : i mod N < N) by (apply Nat.mod_upper_bound; lia).
  rewrite R7 by auto. do 2 f_equal. rewrite <- (dct_spec_inv_fwd k1 k2 N (v (i / N)) (i mod N) Hk HN Hc). apply dct_spec_ext; [exact HNp|]. intros j Hj.
  apply (dct_spec_inv_fwd k1 k2 P (fun r' => dct_spec k1 N (v r') j) (i / N) Hk HP Hr).
Qed.
Print Assumptions C70_dct_round_trip.

(** ** The hypotheses are met: one object of length 8, blocks of 8 times 8, any data *)
Example C70_hypotheses_met : forall b (v : nat -> nat -> R), exists (m : mem CC),
  let x := (b + 8, 0) in let y := (b + 9, 0) in let w := (b + 10, 0) in
  dct_length 8 /\ dct_history b (Some 8) m /\ objects_ok b 8 b 8 /\ (forall p, In p [x; y; w] -> ~ dct_own b (fst p)) /\
  holds m x (8 * 8) (fun i => rc (v (i / 8) (i mod 8))).
Proof.
  intros b v.
  assert (L : dct_length 8) by (apply dct_lengths; [apply (proj1 real_lengths 3); lia|vm_compute; reflexivity]).
  assert (Hx : ~ dct_own b (b + 8)) by (unfold dct_own; lia).
  destruct (dct_hypotheses_met ROps b 8 (b + 8, 0) (fun _ => (0, 0)%R) L Hx) as (m1 & H1 & _).
  exists (fun l : loc => if fst l <=? b + 6 then m1 l else Val (rc (v (snd l / 8) (snd l mod 8)))).
  cbv zeta. split; [exact L|]. split; [|split; [|split]].
  - eapply h_other; [exact H1|]. intros l Hl. unfold dct_own in Hl. rewrite (proj2 (Nat.leb_le _ _)) by lia. reflexivity.
  - left. auto.
  - intros p Hp. cbn [In] in Hp. unfold dct_own. repeat (destruct Hp as [<-|Hp]; [cbn [fst]; lia|]). destruct Hp.
  - intros i Hi. unfold padd. cbn [fst snd]. rewrite !(proj2 (Nat.leb_gt _ _)) by lia. reflexivity.
Qed.
