(** * The power-of-two recursions (any arithmetic) *)

From Coq Require Import List Arith Bool Lia.
From Verif Require Import Scalar Mem MemFacts Omp OmpFacts Lanes Stage CoreStage MixedDrive ModelPow.
Import ListNotations.

Definition pow2 (n : nat) : Prop := exists k, n = 2 ^ k.
Definition four_or_1 (s : nat) : Prop := s = 1 \/ exists h, s = 4 * h /\ 0 < h.

Lemma pow2_pos k : 0 < 2 ^ k.
Proof. induction k; cbn; lia. Qed.
Lemma pow2_inj_le a b : 2 ^ a <= 2 ^ b -> a <= b.
Proof. apply Nat.pow_le_mono_r_iff. lia. Qed.
Lemma pow2_inj_lt a b : 2 ^ a < 2 ^ b -> a < b.
Proof. apply Nat.pow_lt_mono_r_iff. lia. Qed.

(** quotient of powers of two *)
Lemma pow2_quot n r : pow2 n -> pow2 r -> r < n -> exists m, n = r * m /\ n / r = m /\ pow2 m /\ 2 <= m /\ exists h, m = 2 * h.
Proof.
  intros [k ->] [j ->] H. apply pow2_inj_lt in H.
  exists (2 ^ (k - j)). pose proof (pow2_pos j).
  assert (E : 2 ^ k = 2 ^ j * 2 ^ (k - j)) by (rewrite <- Nat.pow_add_r; f_equal; lia).
  split; auto. split.
  - rewrite E, Nat.mul_comm. apply Nat.div_mul. lia.
  - split; [eexists; reflexivity|]. replace (k - j) with (S (k - j - 1)) by lia. cbn [Nat.pow].
    pose proof (pow2_pos (k - j - 1)). split; [lia|]. exists (2 ^ (k - j - 1)). lia.
Qed.

Section PowDrive.
Context {V : Type}.
Notation F := ((nat -> V) -> (nat -> V) -> nat -> V).

Section Pure.
Variables (r : nat) (eF : nat -> nat -> F) (cF : nat -> nat -> F).
Fixpoint dif_ff (fuel n s : nat) (T X : nat -> V) : nat -> V :=
  match fuel with
  | O => X
  | S fuel' => if n <=? r then eF n s T X else dif_ff fuel' (n / r) (r * s) T (cF (n / r) s T X)
  end.
Fixpoint dit_ff (fuel n s : nat) (T X : nat -> V) : nat -> V :=
  match fuel with
  | O => X
  | S fuel' => if n <=? r then eF n s T X else cF (n / r) s T (dit_ff fuel' (n / r) (r * s) T X)
  end.
End Pure.

Variables (A : Type) (seq : A -> A -> A) (bad : A) (r : nat).
Variables (core : nat -> nat -> ptr -> ptr -> A) (fin : nat -> nat -> bool -> ptr -> ptr -> A).
Variable CP : A -> ptr -> nat -> ptr -> (nat -> Prop) -> (loc -> Prop) -> ptr -> nat -> F -> Prop.
Variables (eF : nat -> nat -> F) (cF : nat -> nat -> F).
Variables (N : nat) (W : ptr) (NW : nat -> Prop).

Definition okT (x y : ptr) : Prop := disjR x N y N /\ disjT W NW x N /\ disjT W NW y N.
Lemma okT_swap x y : okT x y -> okT y x.
Proof. intros (H1 & H2 & H3). split; [apply disjR_sym; auto|auto]. Qed.

Hypothesis CP_seq : forall p1 p2 x Nx y Ny z Nz W NW (Ws1 Ws2 Ws : loc -> Prop) F1 F2,
  CP p1 x Nx W NW Ws1 y Ny F1 -> CP p2 y Ny W NW Ws2 z Nz F2 ->
  (forall l, Ws1 l -> ~ inT W NW l) ->
  (forall l, Ws1 l -> Ws l) -> (forall l, Ws2 l -> Ws l) -> (forall l, inR y Ny l -> Ws l) ->
  CP (seq p1 p2) x Nx W NW Ws z Nz (fun T X => F2 T (F1 T X)).
Hypothesis CP_ext : forall p x N W NW Ws out M F G,
  CP p x N W NW Ws out M F -> (forall T X i, i < M -> F T X i = G T X i) -> CP p x N W NW Ws out M G.
Hypothesis CP_weaken : forall p x N W NW (Ws Ws' : loc -> Prop) out M F,
  CP p x N W NW Ws out M F -> (forall l, Ws l -> Ws' l) -> CP p x N W NW Ws' out M F.
Hypothesis Hr : pow2 r.
Hypothesis Hr4 : exists h, r = 4 * h.

Lemma disjT_notin x l : disjT W NW x N -> inR x N l -> ~ inT W NW l.
Proof. intros H H1 H2. destruct H1 as (i & Hi & ->). destruct H2 as (j & Hj & E). eapply H; eauto. Qed.

Section DifD.
Hypothesis Hc : forall m h s x y, N = r * m * s -> m = 2 * h -> 0 < h -> four_or_1 s -> okT x y ->
  CP (core (r * m) s x y) x N W NW (inR y N) y N (cF m s).
Hypothesis He : forall n s eo x y, N = n * s -> pow2 n -> 2 <= n <= r -> four_or_1 s -> okT x y ->
  CP (fin n s eo x y) x N W NW (inR (Xout eo x y) N) (Xout eo x y) N (eF n s).

Lemma dif_rec_C fuel : forall n s eo x y, n <= fuel -> 2 <= n -> pow2 n -> four_or_1 s -> N = n * s -> okT x y ->
  CP (dif_rec seq bad r core fin fuel n s eo x y) x N W NW (fun l => inR x N l \/ inR y N l) (Xout eo x y) N
    (dif_ff r eF cF fuel n s).
Proof.
  induction fuel as [|fuel IH]; intros n s eo x y Hf Hn Hp Hs HN Hok; [lia|].
  cbn [dif_rec dif_ff].
  destruct (Nat.leb_spec n r) as [H|H].
  - eapply CP_ext; [|intros; reflexivity]. eapply CP_weaken; [apply He; auto|]. intros l. destruct eo; cbn; auto.
  - destruct (pow2_quot n r Hp Hr H) as (m & En & Em & Hpm & Hm2 & h & Hh).
    assert (Hr2 : 2 <= r) by (destruct Hr4 as [hh Ehh]; destruct (Nat.eq_dec r 0); [destruct Hr as [j Ej]; pose proof (pow2_pos j); lia|lia]).
    pose proof Hok as (Hxy & HWx & HWy).
    rewrite Em.
    eapply (CP_seq _ _ x N y N _ N W NW (inR y N) (fun l => inR y N l \/ inR x N l) _ (cF m s) (dif_ff r eF cF fuel m (r * s))).
    + rewrite En. apply (Hc m h); auto; try lia; try (rewrite HN, En; reflexivity).
    + rewrite <- Xout_swap. apply IH; auto; [rewrite En in Hf; nia| |rewrite HN, En; lia|apply okT_swap; auto].
      destruct Hr4 as [hh Ehh]. right. exists (hh * s). destruct Hs as [->|(h' & -> & ?)]; nia.
    + intros l. apply disjT_notin; auto.
    + auto.
    + tauto.
    + auto.
Qed.
End DifD.

Section DitD.
Hypothesis Hc : forall m h s x y, N = r * m * s -> m = 2 * h -> 0 < h -> four_or_1 s -> okT x y ->
  CP (core (r * m) s x y) y N W NW (inR x N) x N (cF m s).
Hypothesis He : forall n s eo x y, N = n * s -> pow2 n -> 2 <= n <= r -> four_or_1 s -> okT x y ->
  CP (fin n s eo x y) (Xout eo x y) N W NW (inR x N) x N (eF n s).

Lemma dit_rec_C fuel : forall n s eo x y, n <= fuel -> 2 <= n -> pow2 n -> four_or_1 s -> N = n * s -> okT x y ->
  CP (dit_rec seq bad r core fin fuel n s eo x y) (Xout eo x y) N W NW (fun l => inR x N l \/ inR y N l) x N
    (dit_ff r eF cF fuel n s).
Proof.
  induction fuel as [|fuel IH]; intros n s eo x y Hf Hn Hp Hs HN Hok; [lia|].
  cbn [dit_rec dit_ff].
  destruct (Nat.leb_spec n r) as [H|H].
  - eapply CP_ext; [|intros; reflexivity]. eapply CP_weaken; [apply He; auto|]. auto.
  - destruct (pow2_quot n r Hp Hr H) as (m & En & Em & Hpm & Hm2 & h & Hh).
    assert (Hr2 : 2 <= r) by (destruct Hr4 as [hh Ehh]; destruct (Nat.eq_dec r 0); [destruct Hr as [j Ej]; pose proof (pow2_pos j); lia|lia]).
    pose proof Hok as (Hxy & HWx & HWy).
    rewrite Em.
    eapply (CP_seq _ _ (Xout eo x y) N y N x N W NW (fun l => inR y N l \/ inR x N l) (inR x N) _ (dit_ff r eF cF fuel m (r * s)) (cF m s)).
    + rewrite <- Xout_swap. apply IH; auto; [rewrite En in Hf; nia| |rewrite HN, En; lia|apply okT_swap; auto].
      destruct Hr4 as [hh Ehh]. right. exists (hh * s). destruct Hs as [->|(h' & -> & ?)]; nia.
    + rewrite En. apply (Hc m h); auto; try lia; try (rewrite HN, En; reflexivity).
    + intros l [Hl|Hl]; [apply (disjT_notin y)|apply (disjT_notin x)]; auto.
    + tauto.
    + auto.
    + auto.
Qed.
End DitD.
End PowDrive.
