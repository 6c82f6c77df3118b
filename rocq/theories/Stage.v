(** * Stages: loops over lanes as functions from arrays to arrays (any arithmetic) *)

From Coq Require Import List Arith Bool Lia.
From Verif Require Import Mem MemFacts Omp OmpFacts.
Import ListNotations.

Section Stage.
Context {V : Type}.
Notation mem := (mem V).
Notation prog := (prog V).
Notation lane := (lane V).
Notation phase := (phase (V:=V)).

Definition inR (p : ptr) (n : nat) (l : loc) : Prop := exists i, i < n /\ l = p +! i.
Definition holds (m : mem) (p : ptr) (n : nat) (X : nat -> V) : Prop := forall i, i < n -> m (p +! i) = Val (X i).
Definition disjR (p : ptr) (n : nat) (p' : ptr) (n' : nat) : Prop :=
  forall i j, i < n -> j < n' -> p +! i <> p' +! j.

(** tables: only the entries selected by P need to be initialised *)
Definition inT (p : ptr) (P : nat -> Prop) (l : loc) : Prop := exists i, P i /\ l = p +! i.
Definition tab (m : mem) (p : ptr) (P : nat -> Prop) (X : nat -> V) : Prop := forall i, P i -> m (p +! i) = Val (X i).
Definition disjT (p : ptr) (P : nat -> Prop) (p' : ptr) (n' : nat) : Prop :=
  forall i j, P i -> j < n' -> p +! i <> p' +! j.
Definition Lt (n i : nat) : Prop := i < n.

Lemma padd_inj p i j : p +! i = p +! j -> i = j.
Proof. unfold padd. intros H. injection H. lia. Qed.

Lemma padd_padd p i j : p +! i +! j = p +! (i + j).
Proof. unfold padd. cbn. f_equal. lia. Qed.

Lemma inR_i p n i : i < n -> inR p n (p +! i).
Proof. intros H. exists i. auto. Qed.

Lemma disjR_sym p n p' n' : disjR p n p' n' -> disjR p' n' p n.
Proof. intros H i j Hi Hj E. apply (H j i Hj Hi). auto. Qed.

Lemma disjR_inR p n p' n' l : disjR p n p' n' -> inR p n l -> ~ inR p' n' l.
Proof. intros H (i & Hi & ->) (j & Hj & E). apply (H i j Hi Hj E). Qed.

Lemma disjR_buf p n p' n' : fst p <> fst p' -> disjR p n p' n'.
Proof. intros H i j _ _ E. apply H. unfold padd in E. injection E. auto. Qed.

Lemma disjR_off p a n b n' : a + n <= b \/ b + n' <= a -> disjR (p +! a) n (p +! b) n'.
Proof. intros H i j Hi Hj E. rewrite !padd_padd in E. apply padd_inj in E. lia. Qed.

Lemma disjR_sub p n p' n' a k b k' : disjR p n p' n' -> a + k <= n -> b + k' <= n' -> disjR (p +! a) k (p' +! b) k'.
Proof. intros H Ha Hb i j Hi Hj. rewrite !padd_padd. apply H; lia. Qed.

Lemma disjR_le p n p' n' k k' : disjR p n p' n' -> k <= n -> k' <= n' -> disjR p k p' k'.
Proof. intros H Hk Hk' i j Hi Hj. apply H; lia. Qed.

Lemma holds_frame (m m' : mem) p n X : holds m p n X -> (forall l, inR p n l -> m' l = m l) -> holds m' p n X.
Proof. intros H Hf i Hi. rewrite Hf by (apply inR_i; auto). auto. Qed.

Lemma holds_ext (m : mem) p n X Y : holds m p n X -> (forall i, i < n -> X i = Y i) -> holds m p n Y.
Proof. intros H E i Hi. rewrite H by auto. f_equal; auto. Qed.

Lemma tab_frame (m m' : mem) p P X : tab m p P X -> (forall l, inT p P l -> m' l = m l) -> tab m' p P X.
Proof. intros H Hf i Hi. rewrite Hf by (exists i; auto). auto. Qed.
Lemma tab_sub (m : mem) p (P Q : nat -> Prop) X : tab m p P X -> (forall i, Q i -> P i) -> tab m p Q X.
Proof. intros H Hs i Hi. auto. Qed.
Lemma inT_i p (P : nat -> Prop) i : P i -> inT p P (p +! i).
Proof. intros H. exists i. auto. Qed.

Lemma holds_allocd (m : mem) p n X : holds m p n X -> allocd m (inR p n).
Proof. intros H l (i & Hi & ->). rewrite H by auto. discriminate. Qed.

Lemma holds_le (m : mem) p n k X : holds m p n X -> k <= n -> holds m p k X.
Proof. intros H Hk i Hi. apply H. lia. Qed.

Lemma holds_sub (m : mem) p n a k X : holds m p n X -> a + k <= n -> holds m (p +! a) k (fun i => X (a + i)).
Proof. intros H Hk i Hi. rewrite padd_padd. apply H. lia. Qed.

Lemma holds_det (m : mem) p n X Y : holds m p n X -> holds m p n Y -> forall i, i < n -> X i = Y i.
Proof. intros H1 H2 i Hi. specialize (H1 i Hi). specialize (H2 i Hi). congruence. Qed.

(** [Computes p x N W NW Ws out M F]: from array x holding X and table W holding T, program p
    runs without undefined behaviour, touches only x, W (loads) and Ws (loads and stores) and leaves F T X in out. *)
Definition Computes (p : prog unit) (x : ptr) (N : nat) (W : ptr) (NW : nat -> Prop) (Ws : loc -> Prop)
    (out : ptr) (M : nat) (F : (nat -> V) -> (nat -> V) -> nat -> V) : Prop :=
  forall m T X, holds m x N X -> tab m W NW T -> allocd m Ws ->
    dfp (fun l => inR x N l \/ inT W NW l) Ws m p /\
    exists m', run p m = Some (tt, m') /\ holds m' out M (F T X).

(** the same for a parallel region *)
Definition RComputes (r : list phase) (x : ptr) (N : nat) (W : ptr) (NW : nat -> Prop) (Ws : loc -> Prop)
    (out : ptr) (M : nat) (F : (nat -> V) -> (nat -> V) -> nat -> V) : Prop :=
  forall m T X, holds m x N X -> tab m W NW T -> allocd m Ws ->
    region_ok r m /\
    exists m', run (region_seq r) m = Some (tt, m') /\ holds m' out M (F T X) /\
      (forall l, ~ Ws l -> m' l = m l) /\ (forall l, m' l = m l \/ exists v, m' l = Val v).

Lemma Computes_ext p x N W NW Ws out M F G :
  Computes p x N W NW Ws out M F -> (forall T X i, i < M -> F T X i = G T X i) -> Computes p x N W NW Ws out M G.
Proof.
  intros H E m T X H1 H2 H3. destruct (H m T X H1 H2 H3) as (Hd & m' & Hr & Ho). split; auto.
  exists m'. split; auto. eapply holds_ext; eauto.
Qed.

Lemma RComputes_ext p x N W NW Ws out M F G :
  RComputes p x N W NW Ws out M F -> (forall T X i, i < M -> F T X i = G T X i) -> RComputes p x N W NW Ws out M G.
Proof.
  intros H E m T X H1 H2 H3. destruct (H m T X H1 H2 H3) as (Hd & m' & Hr & Ho & Hf). split; auto.
  exists m'. split; auto. split; auto. eapply holds_ext; eauto.
Qed.

Lemma Computes_weaken p x N W NW (Ws Ws' : loc -> Prop) out M F :
  Computes p x N W NW Ws out M F -> (forall l, Ws l -> Ws' l) -> Computes p x N W NW Ws' out M F.
Proof.
  intros H HW m T X H1 H2 H3. destruct (H m T X H1 H2) as (Hd & Hx); [intros l Hl; auto|]. split; auto.
  eapply dfp_mono; [| |exact Hd]; auto.
Qed.

Lemma RComputes_weaken p x N W NW (Ws Ws' : loc -> Prop) out M F :
  RComputes p x N W NW Ws out M F -> (forall l, Ws l -> Ws' l) -> RComputes p x N W NW Ws' out M F.
Proof.
  intros H HW m T X H1 H2 H3. destruct (H m T X H1 H2) as (Hd & m' & Hr & Ho & Hf & Hv); [intros l Hl; auto|]. split; auto.
  exists m'. repeat split; auto.
Qed.

(** ** single-iteration phases *)
Lemma region_single_ok (p : prog unit) R W (m : mem) : dfp R W m p -> region_ok [(1, fun _ => p)] m.
Proof.
  intros H. cbn. split; auto. exists (fun _ => R), (fun _ => W). constructor; cbn; auto.
  intros i j Hi Hj Hne. lia.
Qed.

Lemma region_single_run (p : prog unit) (m : mem) :
  run (region_seq [(1, fun _ => p)]) m = match run p m with Some (_, m') => Some (tt, m') | None => None end.
Proof. cbn. rewrite run_bind. destruct (run p m) as [[[] m']|]; reflexivity. Qed.

Lemma Computes_single p x N W NW Ws out M F :
  Computes p x N W NW Ws out M F -> RComputes [(1, fun _ => p)] x N W NW Ws out M F.
Proof.
  intros H m T X H1 H2 H3. destruct (H m T X H1 H2 H3) as (Hd & m' & Hr & Ho). split.
  - eapply region_single_ok; eauto.
  - exists m'. rewrite region_single_run, Hr. split; auto. split; auto.
    destruct (dfp_run _ _ _ _ Hd) as ([] & m2 & Hr2 & Hf & Hv). rewrite Hr in Hr2. injection Hr2 as <-. auto.
Qed.

(** ** sequential composition *)
Lemma Computes_seq p1 p2 x Nx y Ny z Nz W NW (Ws1 Ws2 Ws : loc -> Prop) F1 F2 :
  Computes p1 x Nx W NW Ws1 y Ny F1 -> Computes p2 y Ny W NW Ws2 z Nz F2 ->
  (forall l, Ws1 l -> ~ inT W NW l) ->
  (forall l, Ws1 l -> Ws l) -> (forall l, Ws2 l -> Ws l) -> (forall l, inR y Ny l -> Ws l) ->
  Computes (bind p1 (fun _ => p2)) x Nx W NW Ws z Nz (fun T X => F2 T (F1 T X)).
Proof.
  intros H1 H2 HW HS1 HS2 Hy m T X Hx Ht Ha.
  destruct (H1 m T X Hx Ht) as (Hd1 & m1 & Hr1 & Ho1); [intros l Hl; auto|].
  destruct (dfp_run _ _ _ _ Hd1) as ([] & m1' & Hr1' & Hf1 & Hv1). rewrite Hr1 in Hr1'. injection Hr1' as <-.
  destruct (H2 m1 T (F1 T X) Ho1) as (Hd2 & m2 & Hr2 & Ho2).
  { eapply tab_frame; [exact Ht|]. intros l Hl. apply Hf1. intros Hl'. apply (HW l Hl' Hl). }
  { intros l Hl. destruct (Hv1 l) as [->|[v ->]]; [apply Ha; auto|discriminate]. }
  split.
  - apply dfp_bind.
    + eapply dfp_mono; [| |exact Hd1]; auto.
    + intros [] m' Hr'. rewrite Hr1 in Hr'. injection Hr' as <-.
      eapply dfp_mono; [| |exact Hd2]; auto. intros l [Hl|Hl]; auto.
  - exists m2. rewrite run_bind, Hr1. auto.
Qed.

Lemma region_ok_app r1 r2 : forall (m : mem), region_ok r1 m ->
  (forall m', run (region_seq r1) m = Some (tt, m') -> region_ok r2 m') -> region_ok (r1 ++ r2) m.
Proof.
  induction r1 as [|ph r1 IH]; cbn; intros m H1 H2; auto.
  destruct H1 as [Hp Hr]. split; auto. intros m' Hm'. apply IH; auto.
  intros m'' Hm''. apply H2. rewrite run_bind, Hm'. auto.
Qed.

Lemma region_seq_app r1 r2 : forall (m : mem),
  run (region_seq (r1 ++ r2)) m =
  match run (region_seq r1) m with Some (_, m') => run (region_seq r2) m' | None => None end.
Proof.
  induction r1 as [|ph r1 IH]; intros m; cbn; auto.
  rewrite !run_bind. destruct (run (for_ (fst ph) (snd ph)) m) as [[[] m']|]; auto.
Qed.

Lemma RComputes_app r1 r2 x Nx y Ny z Nz W NW (Ws1 Ws2 Ws : loc -> Prop) F1 F2 :
  RComputes r1 x Nx W NW Ws1 y Ny F1 -> RComputes r2 y Ny W NW Ws2 z Nz F2 ->
  (forall l, Ws1 l -> ~ inT W NW l) ->
  (forall l, Ws1 l -> Ws l) -> (forall l, Ws2 l -> Ws l) ->
  RComputes (r1 ++ r2) x Nx W NW Ws z Nz (fun T X => F2 T (F1 T X)).
Proof.
  intros H1 H2 HW HS1 HS2 m T X Hx Ht Ha.
  destruct (H1 m T X Hx Ht) as (Hd1 & m1 & Hr1 & Ho1 & Hf1 & Hv1); [intros l Hl; auto|].
  destruct (H2 m1 T (F1 T X) Ho1) as (Hd2 & m2 & Hr2 & Ho2 & Hf2 & Hv2).
  { eapply tab_frame; [exact Ht|]. intros l Hl. apply Hf1. intros Hl'. apply (HW l Hl' Hl). }
  { intros l Hl. destruct (Hv1 l) as [->|[v ->]]; [apply Ha; auto|discriminate]. }
  split.
  - apply region_ok_app; auto. intros m' Hm'. rewrite Hr1 in Hm'. injection Hm' as <-. auto.
  - exists m2. rewrite region_seq_app, Hr1. repeat split; auto.
    + intros l Hl. rewrite Hf2 by auto. apply Hf1. auto.
    + intros l. destruct (Hv2 l) as [->|H]; auto.
Qed.

(** ** Loops whose iterations are sets of lanes *)
Section Loops.
Context {K : Type}.

Definition Splits (n : nat) (body : nat -> prog unit) (D : K -> Prop) (t : K -> lane) : Prop :=
  exists Di : nat -> K -> Prop,
    (forall i, i < n -> Does (body i) (Di i) t) /\
    (forall i j k, i < n -> j < n -> i <> j -> Di i k -> ~ Di j k) /\
    (forall k, D k <-> exists i, i < n /\ Di i k).

Lemma Disj_sub (D D' : K -> Prop) t : (forall k, D' k -> D k) -> Disj D t -> Disj (V:=V) D' t.
Proof. intros H H1 k k' Hk Hk'. apply H1; auto. Qed.

Lemma Splits_Does n body D t : Splits n body D t -> Disj D t -> Does (for_ n body) D t.
Proof.
  intros (Di & H1 & H2 & H3) Hd.
  eapply Does_ext; [|apply (Does_for n body Di t H1 H2)].
  - intros k. symmetry. apply H3.
  - eapply Disj_sub; [|exact Hd]. intros k Hk. apply H3. auto.
Qed.

Lemma Splits_phase n body D t (m : mem) : Splits n body D t -> Disj D t ->
  initd m (RD D t) -> allocd m (WR D t) -> exists R W, phase_ok (n, body) R W m.
Proof.
  intros (Di & H1 & H2 & H3) Hd Hi Ha.
  exists (fun i => RD (Di i) t), (fun i => WR (Di i) t). apply Does_phase_ok; auto.
  - eapply Disj_sub; [|exact Hd]. intros k Hk. apply H3. auto.
  - intros l (k & Hk & Hl). apply Hi. exists k. split; auto. apply H3; auto.
  - intros l (k & Hk & Hl). apply Ha. exists k. split; auto. apply H3; auto.
Qed.

(** vector iterations *)
Lemma Splits_v n L (f : nat -> nat -> K) (body : nat -> prog unit) (D : K -> Prop) (t : K -> lane) :
  (forall i, i < n -> body i = blockL L (fun l => rd (t (f i l))) (fun l => wr (t (f i l))) (fun l => fn (t (f i l)))) ->
  (forall k, D k -> lane_ok (t k)) ->
  (forall i l i' l', i < n -> l < L -> i' < n -> l' < L -> f i l = f i' l' -> i = i' /\ l = l') ->
  (forall i l, i < n -> l < L -> D (f i l)) ->
  (forall k, D k -> exists i l, i < n /\ l < L /\ k = f i l) ->
  Disj D t -> Splits n body D t.
Proof.
  intros Hb Hok Hinj HD1 HD2 Hd.
  exists (fun i k => exists l, l < L /\ k = f i l). split; [|split].
  - intros i Hi. rewrite Hb by auto. apply Does_blockL.
    + intros l Hl. apply Hok. auto.
    + intros l l' Hl Hl' Hne E. apply Hne. eapply Hinj; eauto.
    + eapply Disj_sub; [|exact Hd]. intros k (l & Hl & ->). auto.
  - intros i j k Hi Hj Hne (l & Hl & E1) (l' & Hl' & E2). apply Hne. subst k. eapply (Hinj i l j l'); eauto.
  - intros k. split.
    + intros Hk. destruct (HD2 k Hk) as (i & l & Hi & Hl & E). eauto.
    + intros (i & Hi & l & Hl & ->). auto.
Qed.

(** scalar iterations *)
Lemma Splits_1 n (f : nat -> K) (body : nat -> prog unit) (D : K -> Prop) (t : K -> lane) :
  (forall i, i < n -> body i = block (rd (t (f i))) (wr (t (f i))) (fn (t (f i)))) ->
  (forall k, D k -> lane_ok (t k)) ->
  (forall i i', i < n -> i' < n -> f i = f i' -> i = i') ->
  (forall i, i < n -> D (f i)) ->
  (forall k, D k -> exists i, i < n /\ k = f i) ->
  Splits n body D t.
Proof.
  intros Hb Hok Hinj HD1 HD2.
  exists (fun i k => k = f i). split; [|split].
  - intros i Hi. rewrite Hb by auto. apply Does_block. auto.
  - intros i j k Hi Hj Hne E1 E2. apply Hne. subst k. auto.
  - intros k. split.
    + intros Hk. destruct (HD2 k Hk) as (i & Hi & E). eauto.
    + intros (i & Hi & ->). auto.
Qed.

(** iterations that are loops *)
Lemma Splits_for n (Di : nat -> K -> Prop) (body : nat -> prog unit) (D : K -> Prop) (t : K -> lane) :
  (forall i, i < n -> Does (body i) (Di i) t) ->
  (forall i j k, i < n -> j < n -> i <> j -> Di i k -> ~ Di j k) ->
  (forall k, D k <-> exists i, i < n /\ Di i k) -> Splits n body D t.
Proof. intros H1 H2 H3. exists Di. auto. Qed.

(** what a covering family of lanes computes *)
Definition Cov (D : K -> Prop) (t : K -> lane) (x : ptr) (N : nat) (W : ptr) (NW : nat -> Prop) (y : ptr) (M : nat)
    (F : (nat -> V) -> (nat -> V) -> nat -> V) : Prop :=
  (forall k l, D k -> In l (rd (t k)) -> inR x N l \/ inT W NW l) /\
  (forall k l, D k -> In l (wr (t k)) -> inR y M l) /\
  (forall i, i < M -> exists k j, D k /\ nth_error (wr (t k)) j = Some (y +! i) /\
     forall m T X, holds m x N X -> tab m W NW T ->
       exists vs, reads m (rd (t k)) vs /\ nth_error (fn (t k) vs) j = Some (F T X i)).

Lemma Does_Computes p D t x N W NW y M F :
  Does p D t -> Cov D t x N W NW y M F -> Computes p x N W NW (inR y M) y M F.
Proof.
  intros [Hfp Hrun] (C1 & C2 & C3) m T X Hx Ht Ha.
  assert (Hi : initd m (RD D t)).
  { intros l (k & Hk & Hl). destruct (C1 k l Hk Hl) as [(i & Hi & ->)|(i & Hi & ->)]; [rewrite Hx|rewrite Ht]; eauto. }
  assert (Hal : allocd m (WR D t)).
  { intros l (k & Hk & Hl). apply Ha. eauto. }
  split.
  - assert (Hd : dfp (RD D t) (WR D t) m p) by (eapply fp_dfp; [exact Hfp|auto|auto|auto]).
    eapply dfp_mono; [| |exact Hd].
    + intros l (k & Hk & Hl). left. eauto.
    + intros l (k & Hk & Hl). eauto.
  - destruct (Hrun m Hi Hal) as (m' & Hr & Hf & Hv). exists m'. split; auto.
    intros i Hi'. destruct (C3 i Hi') as (k & j & Hk & Hw & Hval).
    destruct (Hval m T X Hx Ht) as (vs & Hvs & Hn).
    destruct (Hv k Hk vs Hvs j _ Hw) as (v & Hv1 & Hv2). rewrite Hn in Hv1. injection Hv1 as <-. exact Hv2.
Qed.

Lemma Splits_RComputes n body D t x N W NW y M F :
  Splits n body D t -> Disj D t -> Cov D t x N W NW y M F -> RComputes [(n, body)] x N W NW (inR y M) y M F.
Proof.
  intros Hs Hd Hc m T X Hx Ht Ha.
  pose proof (Does_Computes _ _ _ _ _ _ _ _ _ _ (Splits_Does _ _ _ _ Hs Hd) Hc m T X Hx Ht Ha) as (Hdf & m' & Hr & Ho).
  destruct Hc as (C1 & C2 & C3).
  split.
  - cbn. split; auto. eapply Splits_phase; eauto.
    + intros l (k & Hk & Hl). destruct (C1 k l Hk Hl) as [(i & Hi & ->)|(i & Hi & ->)]; [rewrite Hx|rewrite Ht]; eauto.
    + intros l (k & Hk & Hl). apply Ha. eauto.
  - exists m'. destruct (dfp_run _ _ _ _ Hdf) as ([] & m2 & Hr2 & Hf & Hv). rewrite Hr in Hr2. injection Hr2 as <-.
    cbn. rewrite run_bind, Hr. auto.
Qed.

Lemma Splits_Computes n body D t x N W NW y M F :
  Splits n body D t -> Disj D t -> Cov D t x N W NW y M F -> Computes (for_ n body) x N W NW (inR y M) y M F.
Proof. intros Hs Hd Hc. eapply Does_Computes; [apply Splits_Does; eauto|exact Hc]. Qed.

(** ** Lanes given by index maps *)
Section GLane.
Variables (ki ko : nat) (ri wi : K -> nat -> nat) (tw : K -> list nat) (f : K -> list V -> list V).
Variables (x y W : ptr) (N M : nat) (NW : nat -> Prop) (D : K -> Prop) (dec : nat -> K * nat) (dflt : V).

Definition glane (k : K) : lane :=
  Lane (map (fun e => W +! e) (tw k) ++ map (fun i => x +! (ri k i)) (seq 0 ki))
       (map (fun j => y +! (wi k j)) (seq 0 ko)) (f k).

Definition gfun (T X : nat -> V) (i : nat) : V :=
  let (k, j) := dec i in nth j (f k (map T (tw k) ++ map (fun i => X (ri k i)) (seq 0 ki))) dflt.

Hypothesis Htw : forall k e, D k -> In e (tw k) -> NW e.
Hypothesis Hf : forall k vs, D k -> length vs = length (tw k) + ki -> length (f k vs) = ko.
Hypothesis Hri : forall k i, D k -> i < ki -> ri k i < N.
Hypothesis Hwi : forall k j, D k -> j < ko -> wi k j < M.
Hypothesis Hinj : forall k j k' j', D k -> D k' -> j < ko -> j' < ko -> wi k j = wi k' j' -> k = k' /\ j = j'.
Hypothesis Hdec : forall i, i < M -> D (fst (dec i)) /\ snd (dec i) < ko /\ wi (fst (dec i)) (snd (dec i)) = i.
Hypothesis HW : disjT W NW y M.
Hypothesis Hxy : disjR x N y M \/
  (y = x /\ forall k k' i j, D k -> D k' -> i < ki -> j < ko -> wi k j = ri k' i -> k = k').

Lemma glane_ok k : D k -> lane_ok (glane k).
Proof.
  intros Hk. split.
  - cbn.
    assert (H : forall l, (forall j, In j l -> j < ko) -> NoDup l -> NoDup (map (fun j => y +! wi k j) l)).
    { induction l as [|a l IH]; intros Hl Hnd; cbn; constructor.
      - rewrite in_map_iff. intros (b & E & Hb). apply padd_inj in E.
        destruct (Hinj k b k a) as [_ E2]; auto; [apply Hl; right; auto|apply Hl; left; auto|].
        inversion Hnd; subst; auto.
      - apply IH; [intros; apply Hl; right; auto|]. inversion Hnd; auto. }
    apply H; [intros j Hj; apply in_seq in Hj; lia|apply seq_NoDup].
  - cbn. intros vs. rewrite app_length, !map_length, !seq_length. auto.
Qed.

Lemma glane_disj : Disj D glane.
Proof.
  intros k k' Hk Hk' Hne l Hl. cbn in Hl. apply in_map_iff in Hl as (j & <- & Hj).
  assert (Hj' : j < ko) by (apply in_seq in Hj; lia). clear Hj.
  split; cbn.
  - rewrite in_app_iff, !in_map_iff. intros [(e & E & He)|(i & E & Hi)].
    + apply (HW e (wi k j)); auto. eapply Htw; eauto.
    + assert (Hi' : i < ki) by (apply in_seq in Hi; lia).
      destruct Hxy as [Hxy'|[-> Hxy']].
      * apply (Hxy' (ri k' i) (wi k j)); auto.
      * apply padd_inj in E. apply Hne. eapply Hxy'; eauto.
  - rewrite in_map_iff. intros (j' & E & Hj''). apply padd_inj in E.
    assert (j' < ko) by (apply in_seq in Hj''; lia).
    apply Hne. destruct (Hinj k j k' j'); auto.
Qed.

Lemma map_seq_nth_error {A} (g : nat -> A) n j : j < n -> nth_error (map g (seq 0 n)) j = Some (g j).
Proof.
  intros Hj. rewrite nth_error_map.
  rewrite (nth_error_nth' (seq 0 n) 0) by (rewrite seq_length; auto). rewrite seq_nth by auto. reflexivity.
Qed.

Lemma glane_reads m T X k : D k -> holds m x N X -> tab m W NW T ->
  reads m (rd (glane k)) (map T (tw k) ++ map (fun i => X (ri k i)) (seq 0 ki)).
Proof.
  intros Hk Hx Ht. unfold reads. cbn. rewrite !map_app, !map_map. f_equal.
  - apply map_ext_in. intros e He. apply Ht. eauto.
  - apply map_ext_in. intros i Hi. apply in_seq in Hi. apply Hx. apply Hri; auto; lia.
Qed.

Lemma glane_cov : Cov D glane x N W NW y M gfun.
Proof.
  split; [|split].
  - intros k l Hk Hl. cbn in Hl. rewrite in_app_iff, !in_map_iff in Hl.
    destruct Hl as [(e & <- & He)|(i & <- & Hi)].
    + right. apply inT_i. eauto.
    + left. apply inR_i. apply in_seq in Hi. apply Hri; auto; lia.
  - intros k l Hk Hl. cbn in Hl. apply in_map_iff in Hl as (j & <- & Hj). apply inR_i. apply in_seq in Hj. apply Hwi; auto; lia.
  - intros i Hi. destruct (Hdec i Hi) as (H1 & H2 & H3). destruct (dec i) as [k j] eqn:E. cbn in *.
    exists k, j. split; auto. split.
    + rewrite map_seq_nth_error by auto. rewrite H3. reflexivity.
    + intros m T X Hx Ht. exists (map T (tw k) ++ map (fun i => X (ri k i)) (seq 0 ki)).
      split; [apply glane_reads; auto|].
      unfold gfun. rewrite E. rewrite (nth_error_nth' _ dflt); auto.
      rewrite Hf; auto. rewrite app_length, !map_length, seq_length. reflexivity.
Qed.

End GLane.
End Loops.

End Stage.
