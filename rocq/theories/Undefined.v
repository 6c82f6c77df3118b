(** * Calls with undefined behaviour *)

From Coq Require Import List Arith Bool Lia Permutation.
From Verif Require Import Mem MemFacts Omp OmpFacts Object.
Import ListNotations.

Section Undefined.
Context {V : Type}.
Notation mem := (mem V).
Notation prog := (prog V).
Notation phase := (phase (V:=V)).
Notation act := (act V).

(** some execution of the call reaches a state in which a thread's next operation is undefined *)
Definition undefined (c : list act) (m : mem) : Prop :=
  exists k T m1 i, call_reach c m k T m1 /\ i < k /\ bad (T i) m1.

Lemma undefined_no_outcome c m m' : undefined c m -> ~ Outcome c m m'.
Proof. intros (k & T & m1 & i & Hr & Hi & Hb) [_ _ Hd _ _ _]. exact (Hd k T m1 Hr i Hi Hb). Qed.

(** ** either the call can complete, or undefined behaviour is reachable *)
Lemma step_or_bad (p : prog unit) (m : mem) : p = Ret tt \/ bad p m \/ exists p' m', astep p m p' m'.
Proof.
  destruct p as [[]| |l k|l v k|b n k]; cbn; auto.
  - destruct (m l) as [| |v] eqn:E; [right; left; discriminate|right; left; discriminate|]. right; right. exists (k v), m. constructor. auto.
  - destruct (m l) as [| |v0] eqn:E; [right; left; reflexivity| |]; right; right; exists k, (upd m l v); constructor; rewrite E; discriminate.
Qed.
Lemma threads_dec n (T : threads) (m : mem) : finished n T \/ (exists i, i < n /\ bad (T i) m) \/ exists s', pstep n (T, m) s'.
Proof.
  assert (H : forall j, j <= n -> (forall i, i < j -> T i = Ret tt) \/ (exists i, i < n /\ bad (T i) m) \/ exists s', pstep n (T, m) s').
  { induction j as [|j IH]; intros Hj; [left; intros; lia|].
    destruct (IH ltac:(lia)) as [Hf|[Hb|Hs]]; auto.
    destruct (step_or_bad (T j) m) as [E|[Hb|(p' & m' & Ha)]].
    - left. intros i Hi. destruct (Nat.eq_dec i j) as [->|]; auto. apply Hf. lia.
    - right; left. exists j. split; [lia|auto].
    - right; right. exists (setth T j p', m'). constructor; [lia|auto]. }
  destruct (H n (Nat.le_refl n)) as [Hf|[Hb|Hs]]; auto.
Qed.
Lemma phase_total n s0 : exists (T' : @threads V) m', psteps n s0 (T', m') /\ (finished n T' \/ exists i, i < n /\ bad (T' i) m').
Proof.
  induction (pstep_acc n s0) as [s _ IH]. destruct s as [T m].
  destruct (threads_dec n T m) as [Hf|[Hb|(s' & Hs)]].
  - exists T, m. split; [constructor|auto].
  - exists T, m. split; [constructor|auto].
  - destruct (IH s' Hs) as (T' & m' & Hp & H). exists T', m'. split; [|exact H].
    eapply psteps_trans; [eapply ps_step; [constructor|exact Hs]|exact Hp].
Qed.
Lemma region_total (r : list phase) : forall m, (exists m', region_exec r m m') \/
  (exists n T m1 i, region_reach r m n T m1 /\ i < n /\ bad (T i) m1).
Proof.
  induction r as [|ph r IH]; intros m; [left; exists m; constructor|].
  assert (Hsch : schedule ph [seq 0 (fst ph)]) by (unfold schedule; cbn; rewrite app_nil_r; apply Permutation_refl).
  destruct (phase_total (length [seq 0 (fst ph)]) (team ph [seq 0 (fst ph)], m)) as (T' & m' & Hp & [Hf|(i & Hi & Hb)]).
  - destruct (IH m') as [(m2 & H2)|(n & T & m1 & i & Hr & Hi & Hb)].
    + left. exists m2. eapply re_cons; eauto.
    + right. exists n, T, m1, i. split; [eapply rr_later; eauto|auto].
  - right. exists (length [seq 0 (fst ph)]), T', m', i. split; [eapply rr_here; eauto|auto].
Qed.
Theorem exec_or_undefined (c : list act) : forall m, (exists m', call_exec c m m') \/ undefined c m.
Proof.
  induction c as [|[b n|r] c IH]; intros m.
  - left. exists m. constructor.
  - destruct (IH (malloc m b n)) as [(m' & H)|(k & T & m1 & i & H & Hi & Hb)].
    + left. exists m'. constructor. auto.
    + right. exists k, T, m1, i. split; [constructor; auto|auto].
  - destruct (region_total r m) as [(m1 & H1)|(k & T & m1 & i & H & Hi & Hb)].
    + destruct (IH m1) as [(m' & H)|(k & T & m2 & i & H & Hi & Hb)].
      * left. exists m'. econstructor; eauto.
      * right. exists k, T, m2, i. split; [eapply cr_later; eauto|auto].
    + right. exists k, T, m1, i. split; [apply cr_here; auto|auto].
Qed.

(** ** programs that end in undefined behaviour whatever values they load *)
Fixpoint dies {A} (p : prog A) : Prop :=
  match p with
  | Ret _ => False
  | UB => True
  | Load _ k => forall v, dies (k v)
  | Store _ _ k => dies k
  | Alloc _ _ k => dies k
  end.
Lemma dies_bind_l {A B} (p : prog A) (f : A -> prog B) : dies p -> dies (bind p f).
Proof. induction p as [a| |l k IH|l v k IH|b n k IH]; cbn; auto. contradiction. Qed.
Lemma dies_bind_r {A B} (p : prog A) (f : A -> prog B) : (forall a, dies (f a)) -> dies (bind p f).
Proof. intros H. induction p as [a| |l k IH|l v k IH|b n k IH]; cbn; auto. Qed.
Lemma dies_for n i (body : nat -> prog unit) : i < n -> dies (body i) -> dies (for_ n body).
Proof.
  induction n as [|n IH]; intros Hi H; [lia|]. cbn [for_]. destruct (Nat.eq_dec i n) as [->|].
  - apply dies_bind_r. auto.
  - apply dies_bind_l. apply IH; [lia|auto].
Qed.
Lemma dies_chunk (body : nat -> prog unit) i is : In i is -> dies (body i) -> dies (chunk_prog body is).
Proof.
  induction is as [|j is IH]; intros Hi H; [destruct Hi|]. cbn [chunk_prog]. destruct Hi as [->|Hi].
  - apply dies_bind_l. auto.
  - apply dies_bind_r. auto.
Qed.
Lemma dies_astep (p : prog unit) m p' m' : dies p -> astep p m p' m' -> dies p'.
Proof. intros H Ha. destruct Ha; cbn in H; auto. Qed.
Lemma dies_psteps n (s s' : threads * mem) t : psteps n s s' -> dies (fst s t) -> dies (fst s' t).
Proof.
  induction 1 as [s|s s1 s2 H IH Hs]; auto. intros Hd. specialize (IH Hd).
  inversion Hs as [T m i p' m' Hi Ha]; subst. cbn [fst] in *. unfold setth. destruct (Nat.eqb_spec t i) as [->|].
  - eapply dies_astep; [|exact Ha]. exact IH.
  - exact IH.
Qed.

Definition phase_dies (ph : phase) : Prop := exists i, i < fst ph /\ dies (snd ph i).
Lemma phase_never_ends ph chunks T' m m' : phase_dies ph -> schedule ph chunks ->
  psteps (length chunks) (team ph chunks, m) (T', m') -> ~ finished (length chunks) T'.
Proof.
  intros (i & Hi & Hd) Hs Hp Hf.
  assert (Hin : In i (concat chunks)).
  { eapply Permutation_in; [apply Permutation_sym; exact Hs|]. apply in_seq. lia. }
  apply in_concat in Hin as (c & Hc & Hic). destruct (In_nth chunks c [] Hc) as (t & Ht & E).
  assert (D : dies (T' t)).
  { apply (dies_psteps _ _ _ t Hp). cbn [fst]. unfold team. rewrite E. eapply dies_chunk; eauto. }
  rewrite (Hf t Ht) in D. exact D.
Qed.
Lemma region_never_ends (r : list phase) m m' : Exists phase_dies r -> ~ region_exec r m m'.
Proof.
  intros H. revert m. induction H as [ph r Hd|ph r H IH]; intros m He; inversion He; subst.
  - eapply phase_never_ends; eauto.
  - eapply IH; eauto.
Qed.
Definition act_dies (a : act) : Prop := match a with Par r => Exists phase_dies r | New _ _ => False end.
Lemma call_never_ends (c : list act) m m' : Exists act_dies c -> ~ call_exec c m m'.
Proof.
  intros H. revert m. induction H as [a c Hd|a c H IH]; intros m He; inversion He; subst; cbn in *; auto.
  - eapply region_never_ends; eauto.
  - eapply IH; eauto.
  - eapply IH; eauto.
Qed.
(** no execution completes, and undefined behaviour is reached *)
Theorem dies_undefined (c : list act) m : Exists act_dies c -> (forall m', ~ call_exec c m m') /\ undefined c m.
Proof.
  intros H. split; [intros m'; apply call_never_ends; auto|].
  destruct (exec_or_undefined c m) as [(m' & He)|Hu]; auto. destruct (call_never_ends c m m' H He).
Qed.
Lemma single_dies (p : prog unit) : dies p -> act_dies (Par [(1, fun _ => p)]).
Proof. intros H. constructor. exists 0. cbn. auto. Qed.
End Undefined.
