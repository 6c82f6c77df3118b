(** * The index array of the six-step transform enumerates the 2x2 blocks on and above the diagonal *)

From Coq Require Import List Arith ZArith Bool Lia.
From Verif Require Import Scalar Mem ModelSix.
Import ListNotations.

Fixpoint tri (m u : nat) : nat := match u with O => 0 | S u' => tri m u' + (m - u') end.

Lemma tri_eq m u : u <= m -> 2 * tri m u + u * (u - 1) = 2 * u * m.
Proof.
  induction u as [|u IH]; intros H; [reflexivity|]. cbn [tri]. specialize (IH ltac:(lia)).
  assert (exists d, m = u + d) as (d & ->) by (exists (m - u); lia).
  replace (u + d - u) with d by lia. replace (S u - 1) with u by lia. destruct u as [|u]; [cbn; lia|]. replace (S u - 1) with u in IH by lia. nia.
Qed.
Lemma tri_mono m u u' : u <= u' -> tri m u <= tri m u'.
Proof. induction 1; cbn [tri]; lia. Qed.
Lemma half_2 h : 2 * h / 2 = h.
Proof. rewrite Nat.mul_comm. apply Nat.div_mul. lia. Qed.
Lemma half_21 h : (2 * h + 1) / 2 = h.
Proof. replace (2 * h + 1) with (1 + h * 2) by lia. rewrite Nat.div_add by lia. reflexivity. Qed.

Lemma wnxn_tri m u v : u <= v -> v < m -> wnxn_i m (2 * u) (2 * v) = tri m u + (v - u).
Proof.
  intros Hu Hv. unfold wnxn_i. cbv zeta. rewrite !half_2. pose proof (tri_eq m u ltac:(lia)) as E.
  assert (Hs : u * (u + 1) = 2 * (u * m - tri m u + u)).
  { assert (tri m u <= u * m) by nia. destruct u as [|u]; [cbn; lia|]. replace (S u - 1) with u in E by lia. nia. }
  rewrite Hs, half_2. assert (tri m u <= u * m) by nia. lia.
Qed.
Lemma six_L_tri m : six_L (2 * m) = tri m m.
Proof.
  unfold six_L. cbv zeta. rewrite half_2. pose proof (tri_eq m m (le_n _)) as E.
  assert (Hs : m * (m + 1) = 2 * tri m m) by (destruct m as [|m]; [reflexivity|]; replace (S m - 1) with m in E by lia; nia).
  rewrite Hs. apply half_2.
Qed.

Lemma tri_decode m u i : u <= m -> i < tri m u -> exists a v, a < u /\ a <= v /\ v < m /\ i = tri m a + (v - a).
Proof.
  induction u as [|u IH]; intros Hu Hi; [cbn in Hi; lia|]. cbn [tri] in Hi.
  destruct (lt_dec i (tri m u)) as [H|H].
  - destruct (IH ltac:(lia) H) as (a & v & H1 & H2 & H3 & H4). exists a, v. repeat split; auto; lia.
  - exists u, (u + (i - tri m u)). repeat split; lia.
Qed.
Lemma tri_inj m u v u' v' : u <= v -> v < m -> u' <= v' -> v' < m -> tri m u + (v - u) = tri m u' + (v' - u') -> u = u' /\ v = v'.
Proof.
  intros H1 H2 H3 H4 E. assert (u = u').
  { destruct (Nat.lt_trichotomy u u') as [H|[H|H]]; auto.
    - pose proof (tri_mono m (S u) u' H). cbn [tri] in H0. lia.
    - pose proof (tri_mono m (S u') u H). cbn [tri] in H0. lia. }
  subst. split; lia.
Qed.

(** the positions of the array and the blocks (u, v), u <= v < m, correspond to each other *)
Lemma idx_decode m i : i < six_L (2 * m) -> exists u v, u <= v /\ v < m /\ i = wnxn_i m (2 * u) (2 * v).
Proof.
  rewrite six_L_tri. intros H. destruct (tri_decode m m i (le_n _) H) as (u & v & H1 & H2 & H3 & ->).
  exists u, v. repeat split; auto. symmetry. apply wnxn_tri; auto.
Qed.
Lemma idx_lt m u v : u <= v -> v < m -> wnxn_i m (2 * u) (2 * v) < six_L (2 * m).
Proof.
  intros H1 H2. rewrite six_L_tri, wnxn_tri by auto. pose proof (tri_mono m (S u) m ltac:(lia)). cbn [tri] in H. lia.
Qed.
Lemma idx_inj m u v u' v' : u <= v -> v < m -> u' <= v' -> v' < m ->
  wnxn_i m (2 * u) (2 * v) = wnxn_i m (2 * u') (2 * v') -> u = u' /\ v = v'.
Proof. intros H1 H2 H3 H4 E. rewrite !wnxn_tri in E by auto. eapply tri_inj; eauto. Qed.

Lemma pk_pairs_in m p k : In (p, k) (pk_pairs (2 * m)) <-> exists u v, p = 2 * u /\ k = 2 * v /\ u <= v /\ v < m.
Proof.
  unfold pk_pairs. rewrite half_21, in_flat_map. split.
  - intros (q & Hq & H). apply in_seq in Hq. apply in_map_iff in H as (j & E & Hj). apply in_seq in Hj.
    replace (2 * m - 2 * q + 1) with (2 * (m - q) + 1) in Hj by lia. rewrite half_21 in Hj. injection E as <- <-.
    exists q, (q + j). repeat split; lia.
  - intros (u & v & -> & -> & H1 & H2). exists u. split; [apply in_seq; lia|]. apply in_map_iff. exists (v - u). split; [f_equal; lia|].
    apply in_seq. replace (2 * m - 2 * u + 1) with (2 * (m - u) + 1) by lia. rewrite half_21. lia.
Qed.

Lemma iv_fold len (key : nat * nat -> nat) l : forall t : itab,
  (forall a, In a l -> key a < len /\ fst a < 2 ^ 15 /\ snd a < 2 ^ 15) ->
  (forall a b, In a l -> In b l -> key a = key b -> a = b) ->
  exists t', fold_left (fun t a => iv_set len t (key a) (fst a) (snd a)) l (Some t) = Some t' /\
    (forall a, In a l -> t' (key a) = Some a) /\ (forall j, (forall a, In a l -> key a <> j) -> t' j = t j).
Proof.
  induction l as [|a l IH]; intros t Hb Hi.
  - exists t. split; [reflexivity|]. split; [intros a []|auto].
  - cbn [fold_left]. destruct (Hb a (or_introl eq_refl)) as (B1 & B2 & B3).
    apply Nat.ltb_lt in B1, B2, B3. unfold iv_set at 2. rewrite B1, B2, B3. cbn [andb].
    destruct (IH (fun j => if j =? key a then Some (fst a, snd a) else t j)) as (t' & E & H1 & H2).
    + intros b H. apply Hb. right; auto.
    + intros b c H H'. apply Hi; right; auto.
    + exists t'. split; auto. split.
      * intros b [<-|H]; auto.
        assert (Hdec : {In a l} + {~ In a l}) by (apply in_dec; decide equality; apply Nat.eq_dec).
        destruct Hdec as [Hin|Hnin]; auto.
        rewrite H2.
        -- rewrite Nat.eqb_refl. destruct a; reflexivity.
        -- intros b Hb' E'. apply Hnin. rewrite <- (Hi b a); auto; [right|left]; auto.
      * intros j Hj. rewrite H2 by (intros b H; apply Hj; right; auto).
        destruct (Nat.eqb_spec j (key a)) as [->|]; auto. exfalso. apply (Hj a); auto. left; auto.
Qed.

Lemma init_iv_ok m : 2 * m <= 2 ^ 12 -> exists t, init_iv (2 * m) = Some t /\
  forall u v, u <= v -> v < m -> t (wnxn_i m (2 * u) (2 * v)) = Some (2 * u, 2 * v).
Proof.
  intros Hm. unfold init_iv. cbv zeta. rewrite half_2.
  assert (H15 : 2 ^ 12 <= 2 ^ 15) by (apply Nat.pow_le_mono_r; lia).
  set (q := 2 ^ 15) in *. set (q' := 2 ^ 12) in *.
  destruct (iv_fold (m * (m + 1) / 2) (fun a => wnxn_i m (fst a) (snd a)) (pk_pairs (2 * m)) (fun _ => None)) as (t & E & H & _).
  - intros [p k] H. apply pk_pairs_in in H as (u & v & -> & -> & H1 & H2). cbn [fst snd]. pose proof (idx_lt m u v H1 H2) as Hl.
    unfold six_L in Hl. cbv zeta in Hl. rewrite half_2 in Hl. unfold q, q' in *. repeat split; [exact Hl|lia|lia].
  - intros [p k] [p' k'] H H'. apply pk_pairs_in in H as (u & v & -> & -> & H1 & H2). apply pk_pairs_in in H' as (u' & v' & -> & -> & H3 & H4).
    cbn [fst snd]. intros E. destruct (idx_inj m u v u' v') as [-> ->]; auto.
  - exists t. split; [exact E|]. intros u v H1 H2. apply (H (2 * u, 2 * v)). apply pk_pairs_in. exists u, v. auto.
Qed.

Lemma six_iv_at m u v : 2 * m <= 2 ^ 12 -> u <= v -> v < m -> six_iv (2 * m) (wnxn_i m (2 * u) (2 * v)) = Some (2 * u, 2 * v).
Proof. intros Hm H1 H2. unfold six_iv. destruct (init_iv_ok m Hm) as (t & -> & H). auto. Qed.
