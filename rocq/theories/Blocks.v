(** * Loops of straight-line blocks, where a block may store the same cell twice *)

From Coq Require Import List Arith Bool Lia.
From Verif Require Import Mem MemFacts Omp OmpFacts Lanes Stage Object ObjectFacts Engine Steps.
Import ListNotations.

Section Blocks.
Context {V : Type}.
Notation mem := (mem V).
Notation prog := (prog V).

(** the last value stored at l *)
Fixpoint alast (ws : list loc) (us : list V) (l : loc) : option V :=
  match ws, us with
  | w :: ws', u :: us' => match alast ws' us' l with Some v => Some v | None => if loc_eqb l w then Some u else None end
  | _, _ => None
  end.

Lemma run_stores_alast ws : forall us (m : mem), length us = length ws -> (forall l, In l ws -> m l <> Free) ->
  exists m', run (stores ws us) m = Some (tt, m') /\
    forall l, match alast ws us l with Some v => m' l = Val v | None => m' l = m l end.
Proof.
  induction ws as [|w ws IH]; intros us m Hlen Hal; destruct us as [|u us]; try discriminate.
  - exists m. cbn. auto.
  - cbn in Hlen. injection Hlen as Hlen. destruct (IH us (upd m w u) Hlen) as (m' & Hr & Hv).
    { intros l Hl. destruct (loc_eq_dec l w) as [->|Hne]; [rewrite upd_same; discriminate|]. rewrite upd_other by auto. apply Hal. right. auto. }
    exists m'. split.
    + cbn [stores run]. destruct (m w) eqn:E; auto. exfalso. apply (Hal w); auto. left; auto.
    + intros l. specialize (Hv l). cbn [alast]. destruct (alast ws us l) as [v|] eqn:E; auto.
      destruct (loc_eqb_spec l w) as [->|Hne].
      * rewrite Hv. apply upd_same.
      * rewrite Hv. apply upd_other. auto.
Qed.
Lemma alast_in ws : forall us l v, alast ws us l = Some v -> In l ws.
Proof.
  induction ws as [|w ws IH]; intros [|u us] l v; cbn; try discriminate.
  destruct (alast ws us l) eqn:E; [intros _; right; eauto|]. destruct (loc_eqb_spec l w) as [->|]; [auto|discriminate].
Qed.

Lemma block_last_step rds ws (f : list V -> list V) vs (m : mem) :
  reads m rds vs -> length (f vs) = length ws -> (forall l, In l ws -> m l <> Free) ->
  exists m', Step (block rds ws f) (fun l => In l rds) (fun l => In l ws) m m' /\
    forall l v, alast ws (f vs) l = Some v -> m' l = Val v.
Proof.
  intros Hrd Hlen Hal. destruct (run_stores_alast ws (f vs) m Hlen Hal) as (m' & Hr & Hv). exists m'. split; [split|].
  - unfold block. apply dfp_bind; [eapply dfp_loads; eauto|]. intros a m1 H1. rewrite (run_loads _ _ _ Hrd) in H1. injection H1 as <- <-.
    apply dfp_stores; auto.
  - unfold block. rewrite run_bind, (run_loads _ _ _ Hrd). exact Hr.
  - intros l v E. specialize (Hv l). rewrite E in Hv. auto.
Qed.

Lemma blocks_loop n (rds wrs : nat -> list loc) (f : nat -> list V -> list V) (vs : nat -> list V) (m : mem) :
  (forall i, i < n -> reads m (rds i) (vs i)) ->
  (forall i, i < n -> length (f i (vs i)) = length (wrs i)) ->
  (forall i l, i < n -> In l (wrs i) -> m l <> Free) ->
  (forall i j l, i < n -> j < n -> i <> j -> In l (wrs i) -> ~ In l (rds j) /\ ~ In l (wrs j)) ->
  exists m', Loop n (fun i => block (rds i) (wrs i) (f i))
      (fun l => exists i, i < n /\ In l (rds i)) (fun l => exists i, i < n /\ In l (wrs i)) m m' /\
    forall i l v, i < n -> alast (wrs i) (f i (vs i)) l = Some v -> m' l = Val v.
Proof.
  intros H1 H2 H3 H4.
  destruct (loop_ok n (fun i => block (rds i) (wrs i) (f i)) (fun i l => In l (rds i)) (fun i l => In l (wrs i))
    (fun i mi => forall l v, alast (wrs i) (f i (vs i)) l = Some v -> mi l = Val v) m) as (m' & HL & Hv).
  - intros i Hi. apply (block_last_step (rds i) (wrs i) (f i) (vs i)); auto. intros l. apply H3. auto.
  - auto.
  - exists m'. split; auto. intros i l v Hi E. destruct (Hv i Hi) as (mi & Hp & Ha). rewrite Ha; [auto|]. eapply alast_in; eauto.
Qed.

(** ** running loops *)
Lemma Loop_s n body R S (m m' : mem) : Loop n body R S m m' -> CExec [Par [(1, fun _ => for_ n body)]] S m m'.
Proof. intros [_ H]. apply CExec_par. eapply Step_Exec. exact H. Qed.
Lemma Loop_p n body R S (m m' : mem) : Loop n body R S m m' -> CExec [Par [(n, body)]] S m m'.
Proof. intros [H _]. apply CExec_par. exact H. Qed.
Lemma Loop2_s n1 b1 n2 b2 R1 S1 R2 S2 (S : loc -> Prop) (m m1 m' : mem) : Loop n1 b1 R1 S1 m m1 -> Loop n2 b2 R2 S2 m1 m' ->
  (forall l, S1 l -> S l) -> (forall l, S2 l -> S l) ->
  CExec [Par [(1, fun _ => bind (for_ n1 b1) (fun _ => for_ n2 b2))]] S m m'.
Proof.
  intros [_ H1] [_ H2] A1 A2. apply CExec_par. eapply (Step_Exec _ (fun l => R1 l \/ R2 l)).
  eapply Step_seq; [eapply Step_mono; [| |exact H1]|eapply Step_mono; [| |exact H2]]; auto.
Qed.
Lemma Loop2_p n1 b1 n2 b2 R1 S1 R2 S2 (S : loc -> Prop) (m m1 m' : mem) : Loop n1 b1 R1 S1 m m1 -> Loop n2 b2 R2 S2 m1 m' ->
  (forall l, S1 l -> S l) -> (forall l, S2 l -> S l) ->
  CExec [Par [(n1, b1); (n2, b2)]] S m m'.
Proof.
  intros [H1 _] [H2 _] A1 A2. apply CExec_par.
  change [(n1, b1); (n2, b2)] with ([(n1, b1)] ++ [(n2, b2)])%list.
  eapply Exec_app; eauto.
Qed.
Lemma Step_s p R S (m m' : mem) : Step p R S m m' -> CExec [Par [(1, fun _ => p)]] S m m'.
Proof. intros H. apply CExec_par. eapply Step_Exec. exact H. Qed.

(** ** the same with indices into one array *)
Fixpoint ilast (es : list nat) (us : list V) (e : nat) : option V :=
  match es, us with
  | w :: es', u :: us' => match ilast es' us' e with Some v => Some v | None => if e =? w then Some u else None end
  | _, _ => None
  end.
Lemma ilast_alast (x : ptr) es : forall us e, alast (map (padd x) es) us (x +! e) = ilast es us e.
Proof.
  induction es as [|w es IH]; intros [|u us] e; cbn [map alast ilast]; auto. rewrite IH. destruct (ilast es us e); auto.
  destruct (loc_eqb_spec (x +! e) (x +! w)) as [E|E].
  - apply padd_inj in E. subst. rewrite Nat.eqb_refl. reflexivity.
  - destruct (Nat.eqb_spec e w); [subst; contradiction|reflexivity].
Qed.
Lemma ilast_some es : forall us e, length us = length es -> In e es -> exists v, ilast es us e = Some v.
Proof.
  induction es as [|w es IH]; intros [|u us] e Hl He; try discriminate; [destruct He|].
  cbn in Hl. injection Hl as Hl. cbn [ilast]. destruct (ilast es us e) eqn:E; [eauto|].
  destruct (Nat.eqb_spec e w); [eauto|]. destruct He as [He|He]; [congruence|]. destruct (IH us e Hl He) as (v & Hv). congruence.
Qed.
Lemma ilast_pairs es : forall us e v, ilast es us e = Some v -> In (e, v) (combine es us).
Proof.
  induction es as [|w es IH]; intros [|u us] e v; cbn [ilast combine]; try discriminate.
  destruct (ilast es us e) eqn:E; [intros [= ->]; right; eauto|].
  destruct (Nat.eqb_spec e w); [intros [= ->]; subst; left; auto|discriminate].
Qed.
Lemma iloop n (rds : nat -> list loc) (x : ptr) (es : nat -> list nat) (f : nat -> list V -> list V) (vs : nat -> list V) (m : mem) :
  (forall i, i < n -> reads m (rds i) (vs i)) ->
  (forall i, i < n -> length (f i (vs i)) = length (es i)) ->
  (forall i e, i < n -> In e (es i) -> m (x +! e) <> Free) ->
  (forall i j e, i < n -> j < n -> i <> j -> In e (es i) -> ~ In (x +! e) (rds j) /\ ~ In e (es j)) ->
  exists m', Loop n (fun i => block (rds i) (map (padd x) (es i)) (f i))
      (fun l => exists i, i < n /\ In l (rds i)) (fun l => exists i e, i < n /\ In e (es i) /\ l = x +! e) m m' /\
    forall i e v, i < n -> ilast (es i) (f i (vs i)) e = Some v -> m' (x +! e) = Val v.
Proof.
  intros H1 H2 H3 H4.
  destruct (blocks_loop n rds (fun i => map (padd x) (es i)) f vs m) as (m' & HL & Hv); auto.
  - intros i Hi. rewrite map_length. auto.
  - intros i l Hi Hl. apply in_map_iff in Hl as (e & <- & He). eauto.
  - intros i j l Hi Hj Hne Hl. apply in_map_iff in Hl as (e & <- & He). destruct (H4 i j e Hi Hj Hne He) as (A & B). split; auto.
    intros Hl. apply in_map_iff in Hl as (e' & E & He'). apply padd_inj in E. subst. auto.
  - exists m'. split.
    + eapply Loop_mono; [| |exact HL]; auto. intros l (i & Hi & Hl). apply in_map_iff in Hl as (e & <- & He). exists i, e. auto.
    + intros i e v Hi E. apply (Hv i); auto. rewrite ilast_alast. auto.
Qed.

(** a table filled by a loop; iteration [it e] writes entry e *)
Definition tval (es : nat -> list nat) (us : nat -> list V) (it : nat -> nat) (d : V) (e : nat) : V :=
  match ilast (es (it e)) (us (it e)) e with Some v => v | None => d end.
Lemma table_loop n (x : ptr) (es : nat -> list nat) (us : nat -> list V) (it : nat -> nat) d M (m : mem) :
  (forall i, i < n -> length (us i) = length (es i)) ->
  (forall i e, i < n -> In e (es i) -> e < M) ->
  (forall i j e, i < n -> j < n -> i <> j -> In e (es i) -> ~ In e (es j)) ->
  (forall e, e < M -> it e < n /\ In e (es (it e))) ->
  allocd m (inR x M) ->
  exists m', Loop n (fun i => block [] (map (padd x) (es i)) (fun _ => us i)) (fun _ => False) (inR x M) m m' /\
    holds m' x M (tval es us it d).
Proof.
  intros H1 H2 H3 H4 Ha.
  destruct (iloop n (fun _ => []) x es (fun i _ => us i) (fun _ => []) m) as (m' & HL & Hv); auto.
  - reflexivity.
  - intros i e Hi He. apply Ha, inR_i. eauto.
  - intros i j e Hi Hj Hne He. split; [intros []|eauto].
  - exists m'. split.
    + eapply Loop_mono; [| |exact HL].
      * intros l (i & _ & []).
      * intros l (i & e & Hi & He & ->). apply inR_i. eauto.
    + intros e He. destruct (H4 e He) as (Hi & Hin). destruct (ilast_some _ (us (it e)) e (H1 _ Hi) Hin) as (v & E).
      rewrite (Hv (it e) e v Hi E). unfold tval. rewrite E. reflexivity.
Qed.
Lemma tval_prop es us it d n M (P : nat -> V -> Prop) :
  (forall i, i < n -> length (us i) = length (es i)) ->
  (forall e, e < M -> it e < n /\ In e (es (it e))) ->
  (forall i, i < n -> Forall (fun p => P (fst p) (snd p)) (combine (es i) (us i))) ->
  forall e, e < M -> P e (tval es us it d e).
Proof.
  intros H1 H2 H3 e He. destruct (H2 e He) as (Hi & Hin). destruct (ilast_some _ (us (it e)) e (H1 _ Hi) Hin) as (v & E).
  unfold tval. rewrite E. apply ilast_pairs in E. specialize (H3 _ Hi). rewrite Forall_forall in H3. apply (H3 _ E).
Qed.

End Blocks.
