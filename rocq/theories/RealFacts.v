(** * RFFT: tables, setup and methods, any arithmetic *)

From Coq Require Import List Arith ZArith Bool Lia.
From Verif Require Import Scalar Mem MemFacts Omp OmpFacts Lanes Stage Object ObjectFacts Engine Steps Blocks SixClass
  ModelApi History ApiFacts ModelReal.
Import ListNotations.

Lemma Nat_pow2_dec N : {N = 2 ^ Nat.log2 N} + {N <> 2 ^ Nat.log2 N}.
Proof. apply Nat.eq_dec. Qed.
Lemma pow2_8 N : N = 2 ^ Nat.log2 N -> N <> 1 -> N <> 2 -> N <> 4 -> N = 8 * (N / 8) /\ 0 < N / 8.
Proof.
  intros E H1 H2 H4. remember (Nat.log2 N) as l eqn:El. clear El.
  destruct l as [|[|[|l]]]; cbn in E; try lia.
  assert (E' : N = 8 * 2 ^ l) by (cbn; lia).
  assert (Ed : N / 8 = 2 ^ l) by (rewrite E', Nat.mul_comm; apply Nat.div_mul; lia).
  rewrite Ed. split; auto. pose proof (Nat.pow_nonzero 2 l). lia.
Qed.
Lemma div_2_eq N h : N = 2 * h -> N / 2 = h.
Proof. intros ->. rewrite Nat.mul_comm. apply Nat.div_mul. lia. Qed.
Lemma div_8 N e : N = 8 * e -> N / 2 = 4 * e /\ N / 4 = 2 * e /\ N / 8 = e.
Proof.
  intros ->. repeat split.
  - replace (8 * e) with (4 * e * 2) by lia. apply Nat.div_mul. lia.
  - replace (8 * e) with (2 * e * 4) by lia. apply Nat.div_mul. lia.
  - rewrite Nat.mul_comm. apply Nat.div_mul. lia.
Qed.

Section RealFacts.
Context {Op : Ops}.
Notation mem := (mem C).
Notation act := (act C).

(** ** the table U : which iteration writes which entries, and with what *)
Definition U_n (N : nat) : nat :=
  if negb (N =? 2 ^ Nat.log2 N) then N / 2 + 1 else if N <=? 4 then 1 else N / 8 + 1.
Definition U_es (N p : nat) : list nat :=
  if negb (N =? 2 ^ Nat.log2 N) then [p; N - p]
  else if N =? 1 then [1; 0]
  else if N =? 2 then [2; 0; 1]
  else if N =? 4 then [0; 1; 2; 3; 4]
  else let Nh := N / 2 in let Nq := N / 4 in let Nd := N - Nq in
    [p; Nq - p; Nq + p; Nh - p; Nh + p; Nd - p; Nd + p; N - p].
Definition U_us (N p : nat) : list C :=
  let theta := smul (sn p) (sdiv (smul s2 spi) (sn N)) in
  let c := scos theta in let s := sneg (ssin theta) in
  if negb (N =? 2 ^ Nat.log2 N) then [half2 (ssub s1 s) c; half2 (sadd s1 s) c]
  else if N =? 1 then [half2 s1 s1; half2 s1 s1]
  else if N =? 2 then [half2 s1 s1; half2 s1 s1; half2 s1 (sofZ (-1))]
  else if N =? 4 then [half2 s1 s1; half2 s2 s0; half2 s1 (sofZ (-1)); half2 s0 s0; half2 s1 s1]
  else [half2 (ssub s1 s) c; half2 (sadd s1 c) (sneg s); half2 (sadd s1 c) s; half2 (ssub s1 s) (sneg c);
        half2 (sadd s1 s) (sneg c); half2 (ssub s1 c) s; half2 (ssub s1 c) (sneg s); half2 (sadd s1 s) c].
Definition U_it (N e : nat) : nat :=
  if negb (N =? 2 ^ Nat.log2 N) then Nat.min e (N - e)
  else if N <=? 4 then 0
  else let Nq := N / 4 in Nat.min (e mod Nq) (Nq - e mod Nq).
Definition U_T (N : nat) : nat -> C := tval (U_es N) (U_us N) (U_it N) c0.

Lemma U_len N p : length (U_us N p) = length (U_es N p).
Proof. unfold U_us, U_es. repeat match goal with |- context [if ?b then _ else _] => destruct b end; reflexivity. Qed.
Lemma pow2_small N : N = 2 ^ Nat.log2 N -> N <= 4 -> N = 1 \/ N = 2 \/ N = 4.
Proof. intros E H. destruct N as [|[|[|[|[|N]]]]]; cbn in E; auto; try lia. Qed.

Lemma U_cov N e : 0 < N -> e < N + 1 -> U_it N e < U_n N /\ In e (U_es N (U_it N e)).
Proof.
  intros HN He. unfold U_it, U_n, U_es. destruct (Nat.eqb_spec N (2 ^ Nat.log2 N)) as [E|E]; cbn [negb].
  - destruct (Nat.leb_spec N 4) as [H4|H4].
    + split; [lia|]. destruct (pow2_small N E H4) as [-> | [-> | ->]]; cbn; lia.
    + destruct (pow2_8 N E) as (E8 & Hp); try lia. destruct (div_8 N _ E8) as (A & B & _).
      repeat match goal with |- context [N =? ?k] => destruct (Nat.eqb_spec N k); [lia|] end.
      cbv zeta. rewrite A, B. set (Ne := N / 8) in *.
      pose proof (Nat.div_mod e (2 * Ne) ltac:(lia)) as Hd. pose proof (Nat.mod_upper_bound e (2 * Ne) ltac:(lia)) as Hm.
      set (r := e mod (2 * Ne)) in *. set (q := e / (2 * Ne)) in *. split; [lia|].
      assert (q <= 4) by nia. cbn [In].
      destruct (Nat.min_dec r (2 * Ne - r)) as [Em|Em]; rewrite Em;
        assert (q = 0 \/ q = 1 \/ q = 2 \/ q = 3 \/ q = 4) as [Eq|[Eq|[Eq|[Eq|Eq]]]] by lia; rewrite Eq in Hd; clear - Hd Em Hm Eq E8 He; solve [repeat first [left; lia|right]].
  - pose proof (Nat.div_mod N 2 ltac:(lia)). pose proof (Nat.mod_upper_bound N 2 ltac:(lia)). cbn [In]. split; lia.
Qed.
Lemma U_lt N i e : 0 < N -> i < U_n N -> In e (U_es N i) -> e < N + 1.
Proof.
  intros HN Hi. unfold U_n, U_es in *. destruct (Nat.eqb_spec N (2 ^ Nat.log2 N)) as [E|E]; cbn [negb] in *.
  - destruct (Nat.leb_spec N 4) as [H4|H4].
    + destruct (pow2_small N E H4) as [-> | [-> | ->]]; cbn; lia.
    + destruct (pow2_8 N E) as (E8 & Hp); try lia. destruct (div_8 N _ E8) as (A & B & _).
      repeat match goal with |- context [N =? ?k] => destruct (Nat.eqb_spec N k); [lia|] end.
      cbv zeta. rewrite A, B. cbn [In]. lia.
  - pose proof (Nat.div_mod N 2 ltac:(lia)). cbn [In]. lia.
Qed.
Lemma U_disj N i j e : 0 < N -> i < U_n N -> j < U_n N -> i <> j -> In e (U_es N i) -> ~ In e (U_es N j).
Proof.
  intros HN Hi Hj Hne. unfold U_n, U_es in *. destruct (Nat.eqb_spec N (2 ^ Nat.log2 N)) as [E|E]; cbn [negb] in *.
  - destruct (Nat.leb_spec N 4) as [H4|H4]; [lia|].
    destruct (pow2_8 N E) as (E8 & Hp); try lia. destruct (div_8 N _ E8) as (A & B & _).
    repeat match goal with |- context [N =? ?k] => destruct (Nat.eqb_spec N k); [lia|] end.
    cbv zeta. rewrite A, B. set (Ne := N / 8) in *. clearbody Ne. cbn [In].
    intros [H|[H|[H|[H|[H|[H|[H|[H|[]]]]]]]]]; subst e; lia.
  - pose proof (Nat.div_mod N 2 ltac:(lia)). pose proof (Nat.mod_upper_bound N 2 ltac:(lia)). cbn [In]. intros K K'. lia.
Qed.

Lemma CExec_table (N : nat) (x : ptr) (c : list act) (m m' : mem) n body R S :
  Loop n body R S m m' -> c = [Par [single (for_ n body)]] \/ c = [Par [(n, body)]] -> CExec c S m m'.
Proof. intros H [-> | ->]; [eapply Loop_s|eapply Loop_p]; eauto. Qed.

Lemma rfft_table_ok N (U : ptr) (m : mem) : 0 < N -> allocd m (inR U (N + 1)) ->
  exists m', CExec (rfft_table N U) (inR U (N + 1)) m m' /\ holds m' U (N + 1) (U_T N).
Proof.
  intros HN Ha.
  destruct (table_loop (U_n N) U (U_es N) (U_us N) (U_it N) c0 (N + 1) m) as (m' & HL & Hv); auto.
  - intros. apply U_len.
  - intros i e Hi He. exact (U_lt N i e HN Hi He).
  - intros i j e Hi Hj Hne He. exact (U_disj N i j e HN Hi Hj Hne He).
  - intros e He. apply U_cov; auto.
  - exists m'. split; [|exact Hv].
    unfold rfft_table. rewrite log_loop_spec by lia. cbn [Nat.add]. cbv zeta. destruct (Nat.ltb_spec N 1); [lia|].
    unfold U_n, U_es, U_us in HL.
    destruct (Nat.eqb_spec N (2 ^ Nat.log2 N)) as [E|E]; cbn [negb] in *.
    + destruct (Nat.leb_spec N 4) as [H4|H4].
      * destruct (pow2_small N E H4) as [-> | [-> | ->]]; cbn [Nat.eqb] in *; eapply Loop_s in HL; exact HL.
      * repeat match goal with |- context [N =? ?k] => destruct (Nat.eqb_spec N k); [lia|] end.
        destruct (N <? base_omp_w); [eapply Loop_s|eapply Loop_p]; exact HL.
    + eapply Loop_s. exact HL.
Qed.

(** ** setup *)
Definition rfft_ready (b N : nat) (m : mem) : Prop :=
  fft0_ready b (N / 2) m /\ (0 < N -> holds m (b + 3, 0) (N + 1) (U_T N)).

Lemma Local_imp (own : nat -> Prop) (P : Prop) (r : mem -> Prop) : (P -> Local own r) -> Local own (fun m => P -> r m).
Proof. intros H m m' Hf Hr HP. eapply (H HP); eauto. Qed.
Lemma rfft_ready_local b N : Local (fft_own b) (rfft_ready b N).
Proof.
  apply Local_and.
  - eapply Local_sub; [|apply fft0_ready_local]. apply six_fft_own.
  - apply Local_imp. intros _. apply holds_own_local. unfold fft_own. cbn. lia.
Qed.

(** allocate a buffer and run code on it *)
Lemma SetsUp_newc b n c (r : mem -> Prop) :
  (forall m, allocd m (inR (b, 0) n) -> exists m', CExec c (inR (b, 0) n) m m' /\ r m') ->
  SetsUp (eq b) (New b n :: c) r.
Proof.
  intros H m. destruct (H (malloc m b n) (malloc_allocd m b n)) as (m' & (Ho & Hr & Hc & _) & Hq).
  exists m'. split; [|split; [|split]]; auto.
  intros l Hl. rewrite Hc; [apply malloc_out; congruence|]. intros Hi. apply inR_fst in Hi. apply Hl. rewrite Hi. reflexivity.
Qed.

Lemma rfft_setup_ok b N : SetsUp (fft_own b) (rfft_setup b N) (rfft_ready b N).
Proof.
  unfold rfft_setup, rfft_ready. eapply (SetsUp_two (six_own b) (eq (b + 3))).
  - apply fft0_setup_ok.
  - apply SetsUp_newc. intros m Ha. destruct N as [|N].
    + exists m. split; [apply CExec_nil|lia].
    + destruct (rfft_table_ok (S N) (b + 3, 0) m) as (m' & H1 & H2); [lia|auto|]. exists m'. auto.
  - apply fft0_ready_local.
  - unfold six_own. lia.
  - apply six_fft_own.
  - intros c <-. unfold fft_own. lia.
Qed.

End RealFacts.
