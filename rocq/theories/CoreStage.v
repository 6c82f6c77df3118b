(** * Radix-r stages: loop shapes and index maps of all butterfly passes *)

From Coq Require Import List Arith Bool Lia.
From Verif Require Import Scalar Mem MemFacts Omp OmpFacts Lanes Stage.
Import ListNotations.

Lemma divmod_unique s q q' a a' : q < s -> q' < s -> q + s * a = q' + s * a' -> q = q' /\ a = a'.
Proof.
  intros Hq Hq' E.
  assert (Ha : a = (q + s * a) / s) by (apply (Nat.div_unique _ s a q); lia).
  assert (Ha' : a' = (q' + s * a') / s) by (apply (Nat.div_unique _ s a' q'); lia).
  assert (a = a') by congruence. subst a'. split; [|reflexivity]. lia.
Qed.

Lemma div_up L h : 0 < L -> (L * h + L - 1) / L = h.
Proof.
  intros HL. symmetry. apply (Nat.div_unique _ L h (L - 1)); lia.
Qed.

Lemma div_lin s q a : q < s -> (q + s * a) / s = a.
Proof. intros H. symmetry. apply (Nat.div_unique _ s a q); lia. Qed.
Lemma mod_lin s q a : q < s -> (q + s * a) mod s = q.
Proof. intros H. symmetry. apply (Nat.mod_unique _ s a q); lia. Qed.

Lemma eucl s i : 0 < s -> exists q a, q < s /\ i = q + s * a.
Proof.
  intros H. exists (i mod s), (i / s). split; [apply Nat.mod_upper_bound; lia|].
  pose proof (Nat.div_mod i s). lia.
Qed.

Section CoreStage.
Context {Op : Ops}.
Notation prog := (prog C).
Notation lane := (lane C).
Notation phase := (phase (V:=C)).

(** butterflies (p,q), p < m, q < s *)
Definition DD (m s : nat) (k : nat * nat) : Prop := fst k < m /\ snd k < s.

Section Shapes.
Variables (m s : nat) (t : nat * nat -> lane).
Hypothesis Hok : forall k, DD m s k -> lane_ok (t k).
Hypothesis Hd : Disj (DD m s) t.

Lemma Does_row_v L h p : s = L * h -> 0 < L -> p < m ->
  Does (for_step s L (fun q => vblock L (fun l => t (p, q + l)))) (fun k => fst k = p /\ snd k < s) t.
Proof.
  intros -> HL Hp. unfold for_step. rewrite div_up by auto. apply Splits_Does.
  - apply (Splits_v h L (fun i l => (p, L * i + l))).
    + intros i Hi. reflexivity.
    + intros [a b] [Ha Hb]. cbn in *. subst. apply Hok. split; cbn; auto.
    + intros i l i' l' Hi Hl Hi' Hl' E. injection E as E.
      destruct (divmod_unique L l l' i i') as [E1 E2]; auto; lia.
    + intros i l Hi Hl. cbn. split; auto. nia.
    + intros [a b] [Ha Hb]. cbn in *. subst.
      destruct (eucl L b HL) as (l & i & Hl & ->). exists i, l. split; [nia|]. split; auto. f_equal. lia.
    + eapply Disj_sub; [|exact Hd]. intros [a b] [Ha Hb]. cbn in *. split; cbn; lia.
  - eapply Disj_sub; [|exact Hd]. intros [a b] [Ha Hb]. cbn in *. split; cbn; lia.
Qed.

Lemma Does_row_1 p : p < m ->
  Does (for_ s (fun q => lblock (t (p, q)))) (fun k => fst k = p /\ snd k < s) t.
Proof.
  intros Hp. apply Splits_Does.
  - apply (Splits_1 s (fun i => (p, i))).
    + intros i Hi. reflexivity.
    + intros [a b] [Ha Hb]. cbn in *. subst. apply Hok. split; cbn; auto.
    + intros i i' Hi Hi' E. injection E as E. auto.
    + intros i Hi. cbn. auto.
    + intros [a b] [Ha Hb]. cbn in *. subst. eauto.
  - eapply Disj_sub; [|exact Hd]. intros [a b] [Ha Hb]. cbn in *. split; cbn; lia.
Qed.

(** (A) for p < m: for q < s, q += L: SIMD block *)
Lemma Splits_nest_v L h : s = L * h -> 0 < L ->
  Splits m (fun p => for_step s L (fun q => vblock L (fun l => t (p, q + l)))) (DD m s) t.
Proof.
  intros Es HL. apply (Splits_for m (fun p k => fst k = p /\ snd k < s)).
  - intros p Hp. eapply Does_row_v; eauto.
  - intros i j k _ _ Hne [H1 _] [H2 _]. lia.
  - intros [a b]. unfold DD. cbn. split; [intros [H1 H2]; exists a; auto|intros (i & Hi & <- & H2); auto].
Qed.
(** (B) for p < m: for q < s: scalar block *)
Lemma Splits_nest_1 : Splits m (fun p => for_ s (fun q => lblock (t (p, q)))) (DD m s) t.
Proof.
  apply (Splits_for m (fun p k => fst k = p /\ snd k < s)).
  - intros p Hp. eapply Does_row_1; eauto.
  - intros i j k _ _ Hne [H1 _] [H2 _]. lia.
  - intros [a b]. unfold DD. cbn. split; [intros [H1 H2]; exists a; auto|intros (i & Hi & <- & H2); auto].
Qed.
(** (D) flattened, SIMD *)
Lemma Splits_flat_v L h : s = L * h -> 0 < L ->
  Splits (m * h) (fun i => vblock L (fun l => t (i / h, i mod h * L + l))) (DD m s) t.
Proof.
  intros Es HL.
  destruct h as [|h']. { rewrite Nat.mul_0_r in *. exists (fun _ _ => False). split; [intros; lia|]. split; [intros; lia|].
    intros [a b]. unfold DD. cbn. split; [lia|intros (i & Hi & _); lia]. }
  set (h := S h') in *. assert (Hh : 0 < h) by (unfold h; lia). clearbody h. clear h'.
  apply (Splits_v (m * h) L (fun i l => (i / h, i mod h * L + l))).
  - intros i Hi. reflexivity.
  - exact Hok.
  - intros i l i' l' Hi Hl Hi' Hl' E. injection E as E1 E2.
    destruct (divmod_unique L l l' (i mod h) (i' mod h)) as [F1 F2]; auto; [lia|]. split; auto.
    rewrite (Nat.div_mod i h), (Nat.div_mod i' h) by lia. congruence.
  - intros i l Hi Hl. split; cbn [fst snd].
    + apply Nat.div_lt_upper_bound; lia.
    + pose proof (Nat.mod_upper_bound i h ltac:(lia)) as Hm. rewrite Es.
      set (c := i mod h) in *. clearbody c. nia.
  - intros [a b] [Ha Hb]. cbn [fst snd] in *.
    destruct (eucl L b HL) as (l & c & Hl & ->). exists (c + h * a), l.
    assert (Hc : c < h) by nia.
    split; [nia|]. split; auto. rewrite div_lin, mod_lin by auto. f_equal. lia.
  - exact Hd.
Qed.
(** (E) flattened, scalar *)
Lemma Splits_flat_1 : 
  Splits (m * s) (fun i => lblock (t (i / s, i mod s))) (DD m s) t.
Proof.
  destruct (Nat.eq_dec s 0) as [E0|Hs].
  { subst s. rewrite Nat.mul_0_r in *. exists (fun _ _ => False). split; [intros; lia|]. split; [intros; lia|].
    intros [a b]. unfold DD. cbn. split; [lia|intros (i & Hi & _); lia]. }
  apply (Splits_1 (m * s) (fun i => (i / s, i mod s))).
  - intros i Hi. reflexivity.
  - exact Hok.
  - intros i i' Hi Hi' E. injection E as E1 E2.
    rewrite (Nat.div_mod i s), (Nat.div_mod i' s) by lia. congruence.
  - intros i Hi. split; cbn [fst snd].
    + apply Nat.div_lt_upper_bound; lia.
    + apply Nat.mod_upper_bound; lia.
  - intros [a b] [Ha Hb]. cbn [fst snd] in *. exists (b + s * a). split; [nia|].
    rewrite div_lin, mod_lin by auto. reflexivity.
Qed.
(** (C,F) s = 1, one butterfly per iteration *)
Lemma Splits_col_1 : s = 1 -> Splits m (fun p => lblock (t (p, 0))) (DD m s) t.
Proof.
  intros ->. apply (Splits_1 m (fun i => (i, 0))).
  - reflexivity.
  - exact Hok.
  - intros i i' _ _ E. injection E as E. auto.
  - intros i Hi. split; cbn; auto.
  - intros [a b] [Ha Hb]. cbn in *. exists a. split; auto. f_equal; lia.
Qed.
(** s = 1, vectorised over p *)
Lemma Splits_col_v L h : s = 1 -> m = L * h -> 0 < L ->
  Splits h (fun i => vblock L (fun l => t (L * i + l, 0))) (DD m s) t.
Proof.
  intros -> -> HL. apply (Splits_v h L (fun i l => (L * i + l, 0))).
  - reflexivity.
  - exact Hok.
  - intros i l i' l' Hi Hl Hi' Hl' E. injection E as E.
    destruct (divmod_unique L l l' i i') as [E1 E2]; auto; lia.
  - intros i l Hi Hl. split; cbn; nia.
  - intros [a b] [Ha Hb]. cbn in *.
    destruct (eucl L a HL) as (l & i & Hl & ->). exists i, l. split; [nia|]. split; auto. f_equal; lia.
  - exact Hd.
Qed.
(** m = 1: final passes *)
Lemma Splits_end_v L h : m = 1 -> s = L * h -> 0 < L ->
  Splits h (fun i => vblock L (fun l => t (0, L * i + l))) (DD m s) t.
Proof.
  intros -> -> HL. apply (Splits_v h L (fun i l => (0, L * i + l))).
  - reflexivity.
  - exact Hok.
  - intros i l i' l' Hi Hl Hi' Hl' E. injection E as E.
    destruct (divmod_unique L l l' i i') as [E1 E2]; auto; lia.
  - intros i l Hi Hl. split; cbn; nia.
  - intros [a b] [Ha Hb]. cbn in *.
    destruct (eucl L b HL) as (l & i & Hl & ->). exists i, l. split; [nia|]. split; auto. f_equal; lia.
  - exact Hd.
Qed.
Lemma Splits_end_1 : m = 1 -> Splits s (fun q => lblock (t (0, q))) (DD m s) t.
Proof.
  intros ->. apply (Splits_1 s (fun i => (0, i))).
  - reflexivity.
  - exact Hok.
  - intros i i' _ _ E. injection E as E. auto.
  - intros i Hi. split; cbn; auto.
  - intros [a b] [Ha Hb]. cbn in *. exists b. split; auto. f_equal; lia.
Qed.

End Shapes.

(** ** Decimation in frequency *)
Section Dif.
Variables (r m s N : nat) (NW : nat -> Prop) (x y W : ptr) (tw : nat -> list nat) (f : list C -> list C).

Definition dif_lane (k : nat * nat) : lane := lane_core r (m * s) s x y W (tw (fst k)) f (s * fst k) (snd k).

Definition dif_dec (i : nat) : (nat * nat) * nat := ((i / s / r, i mod s), (i / s) mod r).

Definition dif_fun (T X : nat -> C) : nat -> C :=
  gfun r (fun k i => snd k + s * fst k + m * s * i) (fun k => tw (fst k)) (fun _ => f) dif_dec c0 T X.

Lemma dif_fun_at T X p q j : q < s -> j < r ->
  dif_fun T X (q + s * (j + r * p)) =
  nth j (f (map T (tw p) ++ map (fun i => X (q + s * p + m * s * i)) (seq 0 r))) c0.
Proof.
  intros Hq Hj. unfold dif_fun, gfun, dif_dec.
  rewrite (div_lin s q) by auto. rewrite (mod_lin s q) by auto.
  rewrite (div_lin r j) by auto. rewrite (mod_lin r j) by auto. reflexivity.
Qed.

Hypothesis HN : N = r * m * s.
Hypothesis Hr : 0 < r.
Hypothesis Hs : 0 < s.
Hypothesis Htw : forall p e, p < m -> In e (tw p) -> NW e.
Hypothesis Hf : forall p vs, p < m -> length vs = length (tw p) + r -> length (f vs) = r.
Hypothesis HW : disjT W NW y N.
Hypothesis Hxy : disjR x N y N \/ (y = x /\ m = 1).

Let ri (k : nat * nat) i := snd k + s * fst k + m * s * i.
Let wi (k : nat * nat) j := snd k + r * (s * fst k) + s * j.

Lemma dif_ri k i : DD m s k -> i < r -> ri k i < N.
Proof.
  destruct k as [p q]. unfold DD, ri. cbn [fst snd]. intros [Hp Hq] Hi. subst N.
  assert (q + s * p < m * s) by nia. assert (i + 1 <= r) by lia.
  assert (m * s * (i + 1) <= m * s * r) by (apply Nat.mul_le_mono_l; auto). nia.
Qed.
Lemma dif_wi k j : DD m s k -> j < r -> wi k j < N.
Proof.
  destruct k as [p q]. unfold DD, wi. cbn [fst snd]. intros [Hp Hq] Hj. subst N.
  assert (r * (s * p) + s * j + s <= r * s * (p + 1)) by nia.
  assert (r * s * (p + 1) <= r * s * m) by (apply Nat.mul_le_mono_l; lia). nia.
Qed.
Lemma dif_inj k j k' j' : DD m s k -> DD m s k' -> j < r -> j' < r -> wi k j = wi k' j' -> k = k' /\ j = j'.
Proof.
  destruct k as [p q], k' as [p' q']. unfold DD, wi. cbn [fst snd]. intros [Hp Hq] [Hp' Hq'] Hj Hj' E.
  destruct (divmod_unique s q q' (j + r * p) (j' + r * p')) as [E1 E2]; auto; [lia|].
  destruct (divmod_unique r j j' p p') as [E3 E4]; subst; auto.
Qed.
Lemma dif_decok i : i < N -> DD m s (fst (dif_dec i)) /\ snd (dif_dec i) < r /\ wi (fst (dif_dec i)) (snd (dif_dec i)) = i.
Proof.
  intros Hi. subst N. destruct (eucl s i Hs) as (q & a & Hq & ->). destruct (eucl r a Hr) as (j & p & Hj & ->).
  unfold dif_dec, DD, wi. cbn [fst snd]. rewrite (div_lin s q), (mod_lin s q), (div_lin r j), (mod_lin r j) by auto.
  split; [split; auto|split; auto; lia].
  assert (r * p < r * m) by nia. nia.
Qed.
Lemma dif_sep : disjR x N y N \/
  (y = x /\ forall k k' i j, DD m s k -> DD m s k' -> i < r -> j < r -> wi k j = ri k' i -> k = k').
Proof.
  destruct Hxy as [H|[H1 H2]]; auto. right. split; auto. subst m.
  intros [p q] [p' q'] i j [Hp Hq] [Hp' Hq'] Hi Hj E. unfold wi, ri in E. cbn [fst snd] in *.
  assert (p = 0) by lia. assert (p' = 0) by lia. subst p p'.
  assert (q = q') by (eapply (divmod_unique s q q' j i); auto; lia). subst. auto.
Qed.

Lemma dif_lane_ok k : DD m s k -> lane_ok (dif_lane k).
Proof.
  intros Hk. apply (glane_ok r r ri wi (fun k => tw (fst k)) (fun _ => f) x y W (DD m s)); auto.
  - intros k0 vs [Hk0 _]. apply Hf; auto.
  - apply dif_inj.
Qed.
Lemma dif_disj : Disj (DD m s) dif_lane.
Proof.
  apply (glane_disj r r ri wi (fun k => tw (fst k)) (fun _ => f) x y W N N NW (DD m s)); auto.
  - intros k e [Hk _]. apply Htw; auto.
  - apply dif_ri.
  - apply dif_wi.
  - apply dif_inj.
  - apply dif_sep.
Qed.
Lemma dif_cov : Cov (DD m s) dif_lane x N W NW y N dif_fun.
Proof.
  apply (glane_cov r r ri wi (fun k => tw (fst k)) (fun _ => f) x y W N N NW (DD m s) dif_dec c0); auto.
  - intros k e [Hk _]. apply Htw; auto.
  - intros k0 vs [Hk0 _]. apply Hf; auto.
  - apply dif_ri.
  - apply dif_wi.
  - apply dif_decok.
Qed.

Lemma dif_Computes n body : Splits n body (DD m s) dif_lane ->
  Computes (for_ n body) x N W NW (inR y N) y N dif_fun.
Proof. intros H. eapply Splits_Computes; [exact H|apply dif_disj|apply dif_cov]. Qed.
Lemma dif_RComputes n body : Splits n body (DD m s) dif_lane ->
  RComputes [(n, body)] x N W NW (inR y N) y N dif_fun.
Proof. intros H. eapply Splits_RComputes; [exact H|apply dif_disj|apply dif_cov]. Qed.

End Dif.

(** ** Decimation in time *)
Section Dit.
Variables (r m s N : nat) (NW : nat -> Prop) (y x W : ptr) (tw : nat -> list nat) (f : list C -> list C).

Definition dit_lane (k : nat * nat) : lane := lane_dit r (m * s) s y x W (tw (fst k)) f (s * fst k) (snd k).

Definition dit_dec (i : nat) : (nat * nat) * nat := (((i / s) mod m, i mod s), i / s / m).

Definition dit_fun (T X : nat -> C) : nat -> C :=
  gfun r (fun k i => snd k + r * (s * fst k) + s * i) (fun k => tw (fst k)) (fun _ => f) dit_dec c0 T X.

Lemma dit_fun_at T X p q j : q < s -> p < m ->
  dit_fun T X (q + s * (p + m * j)) =
  nth j (f (map T (tw p) ++ map (fun i => X (q + r * (s * p) + s * i)) (seq 0 r))) c0.
Proof.
  intros Hq Hp. unfold dit_fun, gfun, dit_dec.
  rewrite (div_lin s q) by auto. rewrite (mod_lin s q) by auto.
  rewrite (div_lin m p) by auto. rewrite (mod_lin m p) by auto. reflexivity.
Qed.

Hypothesis HN : N = r * m * s.
Hypothesis Hm : 0 < m.
Hypothesis Hs : 0 < s.
Hypothesis Htw : forall p e, p < m -> In e (tw p) -> NW e.
Hypothesis Hf : forall p vs, p < m -> length vs = length (tw p) + r -> length (f vs) = r.
Hypothesis HW : disjT W NW x N.
Hypothesis Hxy : disjR y N x N.

Let ri (k : nat * nat) i := snd k + r * (s * fst k) + s * i.
Let wi (k : nat * nat) j := snd k + s * fst k + m * s * j.

Lemma dit_ri k i : DD m s k -> i < r -> ri k i < N.
Proof.
  destruct k as [p q]. unfold DD, ri. cbn [fst snd]. intros [Hp Hq] Hj. subst N.
  assert (r * (s * p) + s * i + s <= r * s * (p + 1)) by nia.
  assert (r * s * (p + 1) <= r * s * m) by (apply Nat.mul_le_mono_l; lia). nia.
Qed.
Lemma dit_wi k j : DD m s k -> j < r -> wi k j < N.
Proof.
  destruct k as [p q]. unfold DD, wi. cbn [fst snd]. intros [Hp Hq] Hi. subst N.
  assert (q + s * p < m * s) by nia. assert (j + 1 <= r) by lia.
  assert (m * s * (j + 1) <= m * s * r) by (apply Nat.mul_le_mono_l; auto). nia.
Qed.
Lemma dit_inj k j k' j' : DD m s k -> DD m s k' -> j < r -> j' < r -> wi k j = wi k' j' -> k = k' /\ j = j'.
Proof.
  destruct k as [p q], k' as [p' q']. unfold DD, wi. cbn [fst snd]. intros [Hp Hq] [Hp' Hq'] Hj Hj' E.
  destruct (divmod_unique s q q' (p + m * j) (p' + m * j')) as [E1 E2]; auto; [lia|].
  destruct (divmod_unique m p p' j j') as [E3 E4]; subst; auto.
Qed.
Lemma dit_decok i : i < N -> DD m s (fst (dit_dec i)) /\ snd (dit_dec i) < r /\ wi (fst (dit_dec i)) (snd (dit_dec i)) = i.
Proof.
  intros Hi. subst N. destruct (eucl s i Hs) as (q & a & Hq & ->). destruct (eucl m a Hm) as (p & j & Hp & ->).
  unfold dit_dec, DD, wi. cbn [fst snd]. rewrite (div_lin s q), (mod_lin s q), (div_lin m p), (mod_lin m p) by auto.
  split; [split; auto|split; [|lia]].
  assert (m * j < r * m) by nia. nia.
Qed.

Lemma dit_lane_ok k : DD m s k -> lane_ok (dit_lane k).
Proof.
  intros Hk. apply (glane_ok r r ri wi (fun k => tw (fst k)) (fun _ => f) y x W (DD m s)); auto.
  - intros k0 vs [Hk0 _]. apply Hf; auto.
  - apply dit_inj.
Qed.
Lemma dit_disj : Disj (DD m s) dit_lane.
Proof.
  apply (glane_disj r r ri wi (fun k => tw (fst k)) (fun _ => f) y x W N N NW (DD m s)); auto.
  - intros k e [Hk _]. apply Htw; auto.
  - apply dit_ri.
  - apply dit_wi.
  - apply dit_inj.
Qed.
Lemma dit_cov : Cov (DD m s) dit_lane y N W NW x N dit_fun.
Proof.
  apply (glane_cov r r ri wi (fun k => tw (fst k)) (fun _ => f) y x W N N NW (DD m s) dit_dec c0); auto.
  - intros k e [Hk _]. apply Htw; auto.
  - intros k0 vs [Hk0 _]. apply Hf; auto.
  - apply dit_ri.
  - apply dit_wi.
  - apply dit_decok.
Qed.

Lemma dit_Computes n body : Splits n body (DD m s) dit_lane ->
  Computes (for_ n body) y N W NW (inR x N) x N dit_fun.
Proof. intros H. eapply Splits_Computes; [exact H|apply dit_disj|apply dit_cov]. Qed.
Lemma dit_RComputes n body : Splits n body (DD m s) dit_lane ->
  RComputes [(n, body)] y N W NW (inR x N) x N dit_fun.
Proof. intros H. eapply Splits_RComputes; [exact H|apply dit_disj|apply dit_cov]. Qed.

End Dit.

End CoreStage.
