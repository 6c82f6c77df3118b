(** * Facts about ModelArray.v *)

From Coq Require Import List Arith Bool Lia ZArith.
From Verif Require Import Lanes ModelPow ModelSix ModelApi ModelBluestein ApiFacts BluesteinRun ModelArray.
Import ListNotations.

(** ** specification: legal histories *)
Definition was_alloc (b : nat) (h : list ev) : Prop := exists n, In (Alloc b n) h.
Definition live (b : nat) (h : list ev) : Prop := was_alloc b h /\ ~ In (Free b) h.
(** newest event first: each event is permitted by the events before it *)
Fixpoint legal (h : list ev) : Prop :=
  match h with
  | [] => True
  | e :: h' => legal h' /\
      match e with
      | Alloc b _ => ~ was_alloc b h'     (* the allocator returns a new block *)
      | Free b => live b h'               (* only a live block is released: never twice *)
      | Use b => live b h'                (* only a live block is accessed *)
      | Bad => False
      end
  end.
Definition no_leak (h : list ev) : Prop := forall b, was_alloc b h -> In (Free b) h.

(** ** invariant *)
Definition eng (i : name) : Prop := i = EW \/ i = EWm \/ i = EWs \/ i = EIv.
Definition nset := name -> Prop.
Definition plus (A : nset) (i : name) : nset := fun j => A j \/ j = i.
Definition minus (A : nset) (i : name) : nset := fun j => A j /\ j <> i.

Record Inv (o : bool) (A B : nset) (l : nat) (s : st) : Prop := {
  v_legal : legal (hist s);
  v_new : forall b, was_alloc b (hist s) -> b < nreq s;
  v_live : forall b, live b (hist s) <-> exists i, ptr s i = Some b;
  v_inj : forall i j b, ptr s i = Some b -> ptr s j = Some b -> i = j;
  v_obj : ptr s Obj = None -> forall i, eng i -> ptr s i = None /\ ali s i = None;
  v_ali : forall i, A i -> ali s i = None \/ ali s i = ptr s i;
  v_nn : forall i, B i -> ali s i <> None;
  v_len : len s = l;
  v_o : o = true -> ptr s Obj <> None }.

Definition tri (P : st -> Prop) (c : cmd) (Q R : st -> Prop) : Prop :=
  forall s, P s -> match c s with (true, s') => Q s' | (false, s') => R s' end.

Lemma Inv_mono (o o' : bool) (A A' B B' : nset) l s : Inv o A B l s -> (o' = true -> o = true) -> (forall i, A' i -> A i) -> (forall i, B' i -> B i) -> Inv o' A' B' l s.
Proof. intros [] Ho HA HB. constructor; auto. Qed.

Lemma tri_seq P c d Q R S : tri P c Q R -> tri Q d S R -> tri P (c ;> d) S R.
Proof. intros H1 H2 s Hs. unfold andthen. specialize (H1 s Hs). destruct (c s) as [[] s']; auto. apply H2. auto. Qed.
Lemma tri_assoc P a b c Q R : tri P (a ;> (b ;> c)) Q R -> tri P (a ;> b ;> c) Q R.
Proof. intros H s Hs. specialize (H s Hs). unfold andthen in *. destruct (a s) as [[] s']; auto. Qed.
Lemma tri_weak (P P' Q Q' R R' : st -> Prop) c : tri P c Q R -> (forall s, P' s -> P s) -> (forall s, Q s -> Q' s) -> (forall s, R s -> R' s) -> tri P' c Q' R'.
Proof. intros H HP HQ HR s Hs. specialize (H s (HP s Hs)). destruct (c s) as [[] s']; auto. Qed.
Lemma tri_do (P Q R : st -> Prop) f : (forall s, P s -> Q (f s)) -> tri P (do_ f) Q R.
Proof. intros H s Hs. apply H; auto. Qed.
Lemma tri_ok (P R : st -> Prop) : tri P ok P R.
Proof. intros s Hs. exact Hs. Qed.
Lemma tri_onthrow P c h Q R R' : tri P c Q R' -> tri R' h R R -> tri P (onthrow c h) Q R.
Proof.
  intros H1 H2 s Hs. unfold onthrow. specialize (H1 s Hs). destruct (c s) as [[] s']; auto.
  specialize (H2 s' H1). destruct (h s') as [[] s2]; auto.
Qed.

Lemma beq_refl i : name_beq i i = true. Proof. destruct i; reflexivity. Qed.
Lemma beq_neq i j : i <> j -> name_beq i j = false. Proof. intros H. destruct (name_beq i j) eqn:E; auto. apply internal_name_dec_bl in E. contradiction. Qed.
Lemma upd_eq {A} (f : name -> A) i v : upd f i v i = v. Proof. unfold upd. rewrite beq_refl. reflexivity. Qed.
Lemma upd_ne {A} (f : name -> A) i j v : i <> j -> upd f i v j = f j. Proof. intros H. unfold upd. rewrite beq_neq by auto. reflexivity. Qed.
Lemma name_dec (i j : name) : {i = j} + {i <> j}. Proof. decide equality. Qed.

(** ** primitive steps *)
(** a live block of pointer i is given back and the pointer cleared *)
Lemma Inv_release o A B l s i b : Inv o A B l s -> i <> Obj -> ptr s i = Some b ->
  Inv o (minus A i) B l (set_ptr i None (event (Free b) s)).
Proof.
  intros [] Hi Hb. constructor; cbn [set_ptr event ptr ali hist nreq len]; auto.
  - cbn. split; auto. apply v_live0. eauto.
  - intros b' (n & [E|H]); [discriminate|]. apply v_new0. exists n. auto.
  - intros b'. split.
    + intros ((n & [E|H]) & HF); [discriminate|]. assert (live b' (hist s)) as Hl. { split; [exists n; auto|]. intros Hf. apply HF. right. auto. }
      apply v_live0 in Hl as (j & Hj). exists j. rewrite upd_ne; auto. intros <-. apply HF. left. congruence.
    + intros (j & Hj). destruct (name_dec i j) as [<-|Hne]; [rewrite upd_eq in Hj; discriminate|]. rewrite upd_ne in Hj by auto.
      assert (Hl : live b' (hist s)) by (apply v_live0; eauto). destruct Hl as [(n & Hn) Hf]. split; [exists n; right; auto|].
      intros [E|H]; [|auto]. injection E as ->. apply Hne. eapply v_inj0; eauto.
  - intros j k b' Hj Hk. destruct (name_dec i j) as [<-|Hj']; [rewrite upd_eq in Hj; discriminate|].
    destruct (name_dec i k) as [<-|Hk']; [rewrite upd_eq in Hk; discriminate|]. rewrite upd_ne in Hj, Hk by auto. eauto.
  - rewrite upd_ne by auto. intros H j Hj. destruct (v_obj0 H j Hj) as [H1 H2]. destruct (name_dec i j) as [<-|]; [rewrite upd_eq; auto|].
    rewrite upd_ne by auto. auto.
  - intros j [Hj Hne]. rewrite upd_ne by auto. auto.
  - rewrite upd_ne by auto. exact v_o0.
Qed.
(** a new block for an empty pointer *)
Lemma Inv_acquire o A B l s i n : Inv o A B l s -> ptr s i = None -> (eng i -> ptr s Obj <> None) -> (i = Obj -> forall j, eng j -> A j) ->
  Inv o (minus A i) B l (set_ptr i (Some (nreq s)) {| ptr := ptr s; ali := ali s; len := len s; nreq := S (nreq s); hist := Alloc (nreq s) n :: hist s |}).
Proof.
  intros [] Hn He Ho. constructor; cbn [set_ptr event ptr ali hist nreq len]; auto.
  - cbn. split; auto. intros H. apply v_new0 in H. lia.
  - intros b (k & [E|H]); [injection E as -> _; lia|]. enough (b < nreq s) by lia. apply v_new0. exists k. auto.
  - intros b. split.
    + intros ((k & [E|H]) & HF).
      * injection E as -> _. exists i. apply upd_eq.
      * assert (Hl : live b (hist s)). { split; [exists k; auto|]. intros Hf. apply HF. right. auto. }
        apply v_live0 in Hl as (j & Hj). exists j. rewrite upd_ne; auto. intros <-. congruence.
    + intros (j & Hj). destruct (name_dec i j) as [<-|Hne].
      * rewrite upd_eq in Hj. injection Hj as <-. split; [exists n; left; auto|]. intros [E|H]; [discriminate|].
        assert (Hf : forall h, legal h -> In (Free (nreq s)) h -> was_alloc (nreq s) h).
        { clear. induction h as [|e h IH]; cbn; [tauto|]. intros [Hl He] [->|H]; [destruct He as [(k & Hk) _]; exists k; right; auto|].
          destruct (IH Hl H) as (k & Hk). exists k. right. auto. }
        apply Hf in H; auto. apply v_new0 in H. lia.
      * rewrite upd_ne in Hj by auto. assert (Hl : live b (hist s)) by (apply v_live0; eauto). destruct Hl as [(k & Hk) Hf].
        split; [exists k; right; auto|]. intros [E|H]; [discriminate|auto].
  - intros j k b Hj Hk. assert (Hfr : forall q, ptr s q <> Some (nreq s)).
    { intros q Hq. assert (Hl : live (nreq s) (hist s)) by (apply v_live0; eauto). destruct Hl as [Hl _]. apply v_new0 in Hl. lia. }
    destruct (name_dec i j) as [<-|Hj']; destruct (name_dec i k) as [<-|Hk']; auto.
    + rewrite upd_eq in Hj. rewrite upd_ne in Hk by auto. injection Hj as <-. destruct (Hfr _ Hk).
    + rewrite upd_eq in Hk. rewrite upd_ne in Hj by auto. injection Hk as <-. destruct (Hfr _ Hj).
    + rewrite upd_ne in Hj, Hk by auto. eauto.
  - destruct (name_dec i Obj) as [->|Hi]; [rewrite upd_eq; discriminate|]. rewrite upd_ne by auto. intros H j Hj.
    destruct (v_obj0 H j Hj) as [H1 H2]. rewrite upd_ne; auto. intros <-. apply (He Hj H).
  - intros j [Hj Hne]. rewrite upd_ne by auto. auto.
  - intros Ho'. destruct (name_dec i Obj) as [->|Hi]; [rewrite upd_eq; discriminate|]. rewrite upd_ne by auto. auto.
Qed.
Lemma Inv_none o A B l s i k : Inv o A B l s -> ptr s i = None ->
  Inv o A B l (set_ptr i None {| ptr := ptr s; ali := ali s; len := len s; nreq := k + nreq s; hist := hist s |}).
Proof.
  intros [] Hn. assert (E : forall j, upd (ptr s) i None j = ptr s j).
  { intros j. destruct (name_dec i j) as [<-|]; [rewrite upd_eq; auto|apply upd_ne; auto]. }
  constructor; cbn [set_ptr event ptr ali hist nreq len]; auto.
  - intros b Hb. apply v_new0 in Hb. lia.
  - intros b. rewrite v_live0. split; intros (j & Hj); exists j; rewrite E in *; auto.
  - intros a c b. rewrite !E. eauto.
  - rewrite E. intros H j Hj. rewrite E. auto.
  - intros j Hj. rewrite E. auto.
  - rewrite E. auto.
Qed.
Lemma Inv_ext o A B l s s' : Inv o A B l s -> (forall i, ptr s' i = ptr s i) -> (forall i, ali s' i = ali s i) -> len s' = len s ->
  nreq s' = nreq s -> hist s' = hist s -> Inv o A B l s'.
Proof.
  intros [] E1 E2 E3 E4 E5. constructor; rewrite ?E1, ?E2, ?E3, ?E4, ?E5; auto.
  - intros b. rewrite v_live0. split; intros (j & Hj); exists j; rewrite E1 in *; auto.
  - intros a c b. rewrite !E1. eauto.
  - intros H j Hj. rewrite E1, E2. auto.
  - intros j Hj. rewrite E1, E2. auto.
  - intros j Hj. rewrite E2. auto.
Qed.
Lemma Inv_use o A B l s i b : Inv o A B l s -> A i -> ali s i = Some b -> Inv o A B l (event (Use b) s).
Proof.
  intros [] Hi Hb. assert (Hl : live b (hist s)).
  { apply v_live0. exists i. destruct (v_ali0 i Hi) as [H|H]; congruence. }
  constructor; cbn [set_ptr event ptr ali hist nreq len]; auto.
  - cbn. auto.
  - intros b' (n & [E|H]); [discriminate|]. apply v_new0. exists n. auto.
  - intros b'. rewrite <- v_live0. unfold live, was_alloc. cbn. split.
    + intros [(n & [E|H]) HF]; [discriminate|]. split; [exists n; auto|tauto].
    + intros [(n & H) HF]. split; [exists n; auto|]. intros [E|H']; [discriminate|auto].
Qed.

Section Facts.
Variable fail : nat -> bool.

Lemma t_release (o : bool) A B l i : i <> Obj -> tri (Inv o A B l) (arr_dtor i) (Inv o (minus A i) B l) (fun _ => False).
Proof.
  intros Hi s Hs. unfold arr_dtor, andthen, free_of, do_. destruct (ptr s i) as [b|] eqn:E.
  - apply Inv_release; auto.
  - eapply Inv_mono; [eapply Inv_ext; [apply (Inv_none _ _ _ _ _ i 0 Hs E)|..]|..]; try reflexivity; auto. intros j [H _]. exact H.
Qed.
Lemma t_setup (o : bool) A B l i n : i <> Obj -> (eng i -> o = true) ->
  tri (Inv o A B l) (arr_setup fail i n) (fun s => Inv o (minus A i) B l s /\ ptr s i <> None) (Inv o (minus A i) B l).
Proof.
  intros Hi He s Hs.
  (* forget the old block *)
  assert (exists s1, free_of i s = (true, s1) /\ Inv o (minus A i) B l (set_ptr i None s1)) as (s1 & E1 & H1).
  { unfold free_of. destruct (ptr s i) as [b|] eqn:E.
    - eexists. split; [reflexivity|]. apply Inv_release; auto.
    - eexists. split; [reflexivity|]. eapply Inv_mono; [eapply Inv_ext; [apply (Inv_none _ _ _ _ _ i 0 Hs E)|..]|..]; try reflexivity; auto. intros j [H _]. exact H. }
  unfold arr_setup, andthen. rewrite E1. unfold malloc_to. destruct (fail (nreq s1)) eqn:Ef; unfold check; cbn [set_ptr ptr]; rewrite upd_eq.
  - eapply Inv_ext; [apply (Inv_none _ _ _ _ _ i 1 H1); cbn; apply upd_eq|..]; try reflexivity.
    intros j. cbn. destruct (name_dec i j) as [<-|]; [rewrite !upd_eq; auto|rewrite !upd_ne by auto; auto].
  - split; [|cbn; rewrite upd_eq; discriminate]. eapply Inv_ext; [eapply Inv_mono; [apply (Inv_acquire _ _ _ _ _ i n H1)|..]|..]; try reflexivity; auto.
    + cbn. apply upd_eq.
    + intros H. apply (v_o _ _ _ _ _ H1). auto.
    + intros ->. destruct (Hi eq_refl).
    + intros j Hj. split; auto. apply Hj.
    + intros j. cbn. destruct (name_dec i j) as [<-|]; [rewrite !upd_eq; auto|rewrite !upd_ne by auto; auto].
Qed.
Lemma t_take (o : bool) A B l i : i <> Obj ->
  tri (fun s => Inv o A B l s /\ ptr s i <> None) (take i) (Inv o (plus A i) (plus B i) l) (fun _ => False).
Proof.
  intros Hi s [[] Hn]. unfold take. constructor; cbn [set_ali set_ptr event ptr ali hist nreq len]; auto.
  - intros H j Hj. destruct (v_obj0 H j Hj) as [H1 H2]. split; auto. destruct (name_dec i j) as [<-|]; [rewrite upd_eq; auto|rewrite upd_ne; auto].
  - intros j Hj. destruct (name_dec i j) as [<-|]; [rewrite upd_eq; auto|rewrite upd_ne by auto]. destruct Hj as [Hj| ->]; [auto|congruence].
  - intros j Hj. destruct (name_dec i j) as [<-|]; [rewrite upd_eq; auto|rewrite upd_ne by auto]. destruct Hj as [Hj| ->]; [auto|congruence].
Qed.
Lemma t_null (o : bool) A B l i : tri (Inv o A B l) (null i) (Inv o (plus A i) (minus B i) l) (fun _ => False).
Proof.
  apply tri_do. intros s []. constructor; cbn [set_ali set_ptr event ptr ali hist nreq len]; auto.
  - intros H j Hj. destruct (v_obj0 H j Hj) as [H1 H2]. split; auto. destruct (name_dec i j) as [<-|]; [rewrite upd_eq; auto|rewrite upd_ne; auto].
  - intros j Hj. destruct (name_dec i j) as [<-|]; [rewrite upd_eq; auto|rewrite upd_ne by auto]. destruct Hj as [Hj| ->]; [auto|congruence].
  - intros j [Hj Hne]. rewrite upd_ne by auto. auto.
Qed.
Lemma t_use (o : bool) (A B : nset) l i : A i -> B i -> tri (Inv o A B l) (use i) (Inv o A B l) (fun _ => False).
Proof.
  intros HA HB s Hs. unfold use. destruct (ali s i) as [b|] eqn:E; [eapply Inv_use; eauto|]. destruct (v_nn _ _ _ _ _ Hs i HB E).
Qed.
Lemma t_use_if (o : bool) (A B : nset) l i : A i -> tri (Inv o A B l) (use_if i) (Inv o A B l) (fun _ => False).
Proof. intros HA s Hs. unfold use_if. destruct (ali s i) as [b|] eqn:E; [eapply Inv_use; eauto|exact Hs]. Qed.

Lemma t_seq P c d Q Q' R : tri P c Q (fun _ => False) -> tri Q d Q' R -> tri P (c ;> d) Q' R.
Proof. intros H1 H2. eapply tri_seq; [|exact H2]. eapply tri_weak; [exact H1|auto|auto|contradiction]. Qed.

(** weight.setup(n); W = &weight *)
Lemma t_setup_take (o : bool) A B l i n : i <> Obj -> (eng i -> o = true) ->
  tri (Inv o A B l) (arr_setup fail i n ;> take i) (Inv o (plus A i) (plus B i) l) (Inv o (minus A i) B l).
Proof.
  intros Hi He. eapply tri_seq; [apply t_setup; auto|]. eapply tri_weak; [apply (t_take o (minus A i) B l i Hi)|auto| |contradiction].
  intros s Hs. eapply Inv_mono; [exact Hs|auto| |auto]. intros j [H|H]; [|right; auto]. destruct (name_dec j i) as [->|]; [right; auto|left; split; auto].
Qed.
Lemma t_table (o : bool) A B l i n : i <> Obj -> (eng i -> o = true) ->
  tri (Inv o A B l) (table fail i n) (Inv o (plus A i) (plus B i) l) (Inv o (minus A i) B l).
Proof.
  intros Hi He. unfold table. eapply tri_seq; [apply t_setup_take; auto|]. eapply tri_weak; [apply (t_use o (plus A i) (plus B i) l i); right; auto|auto|auto|contradiction].
Qed.

Definition noeng (A : nset) : nset := fun j => A j /\ ~ eng j.
Definition witheng (A : nset) : nset := fun j => A j \/ eng j.

(** algorithm objects: on success all pointers of the object are in order; on a throw the others are *)
Definition Tw (o : bool) (A B : nset) l : st -> Prop := fun s => Inv o (noeng A) (noeng B) l s.
Ltac nsolve := unfold plus, minus, noeng, witheng, eng in *; intuition (subst; auto; try congruence).

Lemma t_sub (A B : nset) l i n : eng i -> (forall j, eng j -> A j) -> (forall j, B j -> ~ eng j) ->
  tri (Inv true A B l) (sub_arr fail i n) (fun s => Inv true A B l s) (Tw true A B l).
Proof.
  intros Hi HA HB. assert (Ho : i <> Obj) by (destruct Hi as [->|[->|[->| ->]]]; discriminate).
  unfold sub_arr. destruct (n <=? 8).
  - eapply tri_weak; [apply (t_null true A B l _)|auto| |contradiction]. intros s Hs. eapply Inv_mono; [exact Hs|auto|nsolve|].
    intros j Hj. split; auto. intros ->. apply (HB i Hj Hi).
  - eapply tri_weak; [apply (t_table true A B l i (2 * n) Ho); auto|auto| |].
    + intros s Hs. eapply Inv_mono; [exact Hs|auto|nsolve|nsolve].
    + intros s Hs. eapply Inv_mono; [exact Hs|auto| |nsolve]. intros j [Hj Hne]. split; auto. intros ->. auto.
Qed.
Lemma t_table_e (A B : nset) l i n : eng i -> (forall j, eng j -> A j) -> (forall j, B j -> ~ eng j) ->
  tri (Inv true A B l) (table fail i n) (fun s => Inv true A B l s) (Tw true A B l).
Proof.
  intros Hi HA HB. assert (Ho : i <> Obj) by (destruct Hi as [->|[->|[->| ->]]]; discriminate).
  eapply tri_weak; [apply (t_table true A B l i n Ho); auto|auto| |].
  - intros s Hs. eapply Inv_mono; [exact Hs|auto|nsolve|nsolve].
  - intros s Hs. eapply Inv_mono; [exact Hs|auto| |nsolve]. intros j [Hj Hne]. split; auto. intros ->. auto.
Qed.
Lemma t_nxn (A B : nset) l i n : eng i -> i <> EIv -> (forall j, eng j -> A j) -> (forall j, B j -> ~ eng j) ->
  tri (Inv true A B l) (nxn_arr fail i n) (fun s => Inv true A B l s) (Tw true A B l).
Proof.
  intros Hi Hiv HA HB. assert (Ho : i <> Obj) by (destruct Hi as [->|[->|[->| ->]]]; discriminate).
  assert (He : eng EIv) by (unfold eng; auto).
  unfold nxn_arr. cbv zeta.
  eapply tri_seq with (Q := Inv true (plus (plus A i) EIv) (plus (plus B i) EIv) l).
  2:{ eapply tri_weak; [apply (t_use true (plus (plus A i) EIv) (plus (plus B i) EIv) l EIv); right; auto|auto| |contradiction].
      intros s Hs. eapply Inv_mono; [exact Hs|auto|nsolve|nsolve]. }
  eapply tri_seq with (Q := Inv true (plus (plus A i) EIv) (plus (plus B i) EIv) l).
  2:{ eapply tri_weak; [apply (t_use true (plus (plus A i) EIv) (plus (plus B i) EIv) l i); left; right; auto|auto|auto|contradiction]. }
  apply tri_assoc. eapply tri_seq.
  - eapply tri_weak; [apply (t_setup_take true A B l i _ Ho); auto|auto|intros s Hs; exact Hs|].
    intros s Hs. eapply Inv_mono; [exact Hs|auto| |nsolve]. intros j [Hj Hne]. split; auto. intros ->. auto.
  - eapply tri_weak; [apply (t_setup_take true (plus A i) (plus B i) l EIv); [discriminate|auto]|auto|auto|].
    intros s Hs. eapply Inv_mono; [exact Hs|auto| |].
    + intros j [Hj Hne]. split; [left; auto|]. intros ->. auto.
    + intros j [Hj Hne]. left. auto.
Qed.
Lemma t_engine (A B : nset) l e : (forall j, eng j -> A j) -> (forall j, B j -> ~ eng j) ->
  tri (Inv true A B l) (engine_arr fail e) (fun s => Inv true A B l s) (Tw true A B l).
Proof.
  intros HA HB. assert (E1 : eng EW) by (unfold eng; auto). assert (E2 : eng EWm) by (unfold eng; auto). assert (E3 : eng EWs) by (unfold eng; auto).
  destruct e as [a n|n|N]; cbn [engine_arr].
  - unfold pow_arr. cbv zeta. destruct (2 ^ n <=? radix a); [|destruct (2 ^ n <? omp_min a); apply t_table_e; auto].
    eapply tri_weak; [apply (t_null true A B l _)|auto| |contradiction]. intros s Hs. eapply Inv_mono; [exact Hs|auto|nsolve|].
    intros j Hj. split; auto. intros ->. apply (HB _ Hj E1).
  - unfold six_arr. cbv zeta. destruct (n <=? 5); [apply t_sub; auto|]. destruct (Nat.odd n).
    + eapply tri_seq; [|apply t_sub; auto]. eapply tri_seq; [apply t_table_e; auto|apply t_nxn; auto; discriminate].
    + eapply tri_seq; [|apply t_sub; auto]. apply t_nxn; auto; discriminate.
  - apply t_table_e; auto.
Qed.

(** obj.reset() *)
Lemma release_frame o A B l s i : i <> Obj -> Inv o A B l s ->
  exists s', arr_dtor i s = (true, s') /\ Inv o (minus A i) B l s' /\ ptr s' i = None /\ (forall j, i <> j -> ptr s' j = ptr s j) /\ forall j, ali s' j = ali s j.
Proof.
  intros Hi Hs. pose proof (t_release o A B l i Hi s Hs) as H. unfold arr_dtor, andthen, free_of, do_ in *.
  destruct (ptr s i) as [b|]; eexists; (split; [reflexivity|]; split; [exact H|]; cbn; split; [apply upd_eq|]; split; [intros j Hj; apply upd_ne; auto|auto]).
Qed.
Lemma null_frame o A B l s i : Inv o A B l s ->
  exists s', null i s = (true, s') /\ Inv o (plus A i) (minus B i) l s' /\ ali s' i = None /\ (forall j, ptr s' j = ptr s j) /\ forall j, i <> j -> ali s' j = ali s j.
Proof.
  intros Hs. pose proof (t_null o A B l i s Hs) as H. unfold null, do_ in *. eexists. split; [reflexivity|]. split; [exact H|]. cbn.
  split; [apply upd_eq|]. split; auto. intros j Hj. apply upd_ne; auto.
Qed.
(** delete of the algorithm object once its arrays are gone *)
Lemma Inv_delete (o : bool) A B l s b : Inv o A B l s -> ptr s Obj = Some b -> (forall i, eng i -> ptr s i = None /\ ali s i = None) ->
  Inv false (minus A Obj) B l (set_ptr Obj None (event (Free b) s)).
Proof.
  intros [] Hb He. constructor; cbn [set_ptr event ptr ali hist nreq len]; auto; try discriminate.
  - cbn. split; auto. apply v_live0. eauto.
  - intros b' (n & [E|H]); [discriminate|]. apply v_new0. exists n. auto.
  - intros b'. split.
    + intros ((n & [E|H]) & HF); [discriminate|]. assert (live b' (hist s)) as Hl. { split; [exists n; auto|]. intros Hf. apply HF. right. auto. }
      apply v_live0 in Hl as (j & Hj). exists j. rewrite upd_ne; auto. intros <-. apply HF. left. congruence.
    + intros (j & Hj). destruct (name_dec Obj j) as [<-|Hne]; [rewrite upd_eq in Hj; discriminate|]. rewrite upd_ne in Hj by auto.
      assert (Hl : live b' (hist s)) by (apply v_live0; eauto). destruct Hl as [(n & Hn) Hf]. split; [exists n; right; auto|].
      intros [E|H]; [|auto]. injection E as ->. apply Hne. eapply v_inj0; eauto.
  - intros j k b' Hj Hk. destruct (name_dec Obj j) as [<-|Hj']; [rewrite upd_eq in Hj; discriminate|].
    destruct (name_dec Obj k) as [<-|Hk']; [rewrite upd_eq in Hk; discriminate|]. rewrite upd_ne in Hj, Hk by auto. eauto.
  - intros _ j Hj. destruct (He j Hj). split; auto. rewrite upd_ne; auto. intros <-. destruct Hj as [H'|[H'|[H'|H']]]; discriminate.
  - intros j [Hj Hne]. rewrite upd_ne by auto. auto.
Qed.
Lemma t_reset (o : bool) (A B : nset) l : (forall j, A j -> j <> Obj) ->
  tri (Inv o (noeng A) (noeng B) l) obj_reset_arr (fun s => Inv false (witheng A) (noeng B) l s /\ ptr s Obj = None) (fun _ => False).
Proof. clear fail.
  intros HO s Hs. unfold obj_reset_arr. destruct (ptr s Obj) as [b0|] eqn:E0.
  2:{ split; auto. destruct Hs. constructor; auto; try discriminate.
      intros i Hi. assert (Hd : eng i \/ ~ eng i) by (unfold eng; destruct i; intuition discriminate).
      destruct Hd as [Hd|Hd]; [left; apply v_obj0; auto|]. apply v_ali0. destruct Hi as [Hi|Hi]; [split; auto|contradiction]. }
  unfold andthen at 1.
  destruct (release_frame o _ _ l s EIv ltac:(discriminate) Hs) as (s1 & R1 & I1 & N1 & P1 & L1).
  destruct (release_frame o _ _ l s1 EWs ltac:(discriminate) I1) as (s2 & R2 & I2 & N2 & P2 & L2).
  destruct (release_frame o _ _ l s2 EWm ltac:(discriminate) I2) as (s3 & R3 & I3 & N3 & P3 & L3).
  destruct (release_frame o _ _ l s3 EW ltac:(discriminate) I3) as (s4 & R4 & I4 & N4 & P4 & L4).
  destruct (null_frame o _ _ l s4 EIv I4) as (s5 & R5 & I5 & N5 & P5 & L5).
  destruct (null_frame o _ _ l s5 EWs I5) as (s6 & R6 & I6 & N6 & P6 & L6).
  destruct (null_frame o _ _ l s6 EWm I6) as (s7 & R7 & I7 & N7 & P7 & L7).
  destruct (null_frame o _ _ l s7 EW I7) as (s8 & R8 & I8 & N8 & P8 & L8).
  unfold andthen. rewrite R1, R2, R3, R4, R5, R6, R7, R8.
  assert (E8 : ptr s8 Obj = Some b0). { rewrite P8, P7, P6, P5, P4, P3, P2, P1 by discriminate. exact E0. }
  unfold free_of. rewrite E8. unfold do_.
  assert (He : forall i, eng i -> ptr s8 i = None /\ ali s8 i = None).
  { intros i [->|[->|[->| ->]]].
    - rewrite P8, P7, P6, P5. auto.
    - rewrite P8, P7, P6, P5, P4 by discriminate. rewrite L8 by discriminate. auto.
    - rewrite P8, P7, P6, P5, P4, P3 by discriminate. rewrite L8, L7 by discriminate. auto.
    - rewrite P8, P7, P6, P5, P4, P3, P2 by discriminate. rewrite L8, L7, L6 by discriminate. auto. }
  split; [|reflexivity].
  eapply Inv_mono; [apply (Inv_delete o _ _ l s8 b0 I8 E8 He)|auto| |].
  - intros i Hi. assert (Hn : i <> Obj).
    { destruct Hi as [Hi|Hi]; [auto|]. intros ->. destruct Hi as [H'|[H'|[H'|H']]]; discriminate. }
    split; auto. assert (Hd : eng i \/ ~ eng i) by (unfold eng; destruct i; intuition discriminate).
    destruct Hd as [[->|[->|[->| ->]]]|Hd]; [unfold plus; tauto..|].
    destruct Hi as [Hi|Hi]; [|contradiction]. left. left. left. left. unfold minus, noeng. unfold eng in *.
    repeat split; auto; intros ->; apply Hd; auto.
  - intros i [Hi Hn]. unfold minus, noeng. unfold eng in *. repeat split; auto; intros ->; apply Hn; auto.
Qed.
(** ** FFT0.  [F o X Y l]: the algorithm object's pointers and those of X are in order, those of Y are not null *)
Definition F (o : bool) (X Y : nset) (l : nat) : st -> Prop := Inv o (witheng X) Y l.
Definition plain (X : nset) : Prop := forall j, X j -> j <> Obj /\ ~ eng j.

Lemma t_instance (X Y : nset) l : plain X -> plain Y ->
  tri (fun s => F false X Y l s /\ ptr s Obj = None) (instance fail) (F true X Y l) (fun s => F false X Y l s /\ ptr s Obj = None).
Proof.
  intros HX HY s [Hs HO]. unfold instance, andthen at 1 2 3 4 5 6 7 8 9, malloc_to. destruct (fail (nreq s)) eqn:Ef.
  - unfold check. cbn [set_ptr ptr]. rewrite upd_eq. split; [|reflexivity]. apply (Inv_none _ _ _ _ _ Obj 1 Hs HO).
  - unfold check. cbn [set_ptr ptr]. rewrite upd_eq.
    set (s1 := set_ptr Obj _ _).
    assert (H1 : F true X Y l s1).
    { pose proof (Inv_acquire false (witheng X) Y l s Obj 1 Hs HO) as H. fold s1 in H.
      assert (He : eng Obj -> ptr s Obj <> None) by (intros [H'|[H'|[H'|H']]]; discriminate).
      assert (Ha : Obj = Obj -> forall j, eng j -> witheng X j) by (intros _ j Hj; right; auto).
      specialize (H He Ha). destruct H. constructor; auto.
      - intros i Hi. apply v_ali0. split; auto. destruct Hi as [Hi|Hi]; [apply HX; auto|]. intros ->. destruct Hi as [H'|[H'|[H'|H']]]; discriminate.
      - intros _. subst s1. cbn. discriminate. }
    assert (N1 : forall i, eng i -> ptr s1 i = None).
    { intros i Hi. destruct (v_obj _ _ _ _ _ Hs HO i Hi) as [Hp _]. subst s1. cbn. rewrite upd_ne; auto. intros <-. destruct Hi as [H'|[H'|[H'|H']]]; discriminate. }
    clearbody s1. unfold arr_ctor0, do_.
    pose proof (Inv_none _ _ _ _ _ EW 0 H1 (N1 EW ltac:(unfold eng; auto))) as H2.
    match type of H2 with Inv _ _ _ _ ?a => set (s2 := a) in H2 end.
    assert (E2 : forall i, eng i -> ptr s2 i = None). { intros i Hi. subst s2. cbn. unfold upd. destruct (name_beq EW i); auto. }
    pose proof (Inv_none _ _ _ _ _ EWm 0 H2 (E2 EWm ltac:(unfold eng; auto))) as H3.
    match type of H3 with Inv _ _ _ _ ?a => set (s3 := a) in H3 end.
    assert (E3 : forall i, eng i -> ptr s3 i = None). { intros i Hi. subst s3. cbn [ptr set_ptr]. unfold upd at 1. destruct (name_beq EWm i); auto. }
    pose proof (Inv_none _ _ _ _ _ EWs 0 H3 (E3 EWs ltac:(unfold eng; auto))) as H4.
    match type of H4 with Inv _ _ _ _ ?a => set (s4 := a) in H4 end.
    assert (E4 : forall i, eng i -> ptr s4 i = None). { intros i Hi. subst s4. cbn [ptr set_ptr]. unfold upd at 1. destruct (name_beq EWs i); auto. }
    pose proof (Inv_none _ _ _ _ _ EIv 0 H4 (E4 EIv ltac:(unfold eng; auto))) as H5.
    match type of H5 with Inv _ _ _ _ ?a => set (s5 := a) in H5 end.
    change (F true X Y l (snd (null EIv (snd (null EWs (snd (null EWm (snd (null EW s5))))))))).
    pose proof (t_null _ _ _ _ EW s5 H5) as H6. pose proof (t_null _ _ _ _ EWm _ H6) as H7. pose proof (t_null _ _ _ _ EWs _ H7) as H8.
    pose proof (t_null _ _ _ _ EIv _ H8) as H9. eapply Inv_mono; [exact H9|auto| |].
    + intros i Hi. unfold plus. auto.
    + intros i Hi. destruct (HY i Hi) as [_ Hn]. unfold eng in Hn. unfold minus. repeat split; auto; intros ->; apply Hn; auto.
Qed.

Definition sel (n : nat) : bool := match select n with Some _ => true | None => false end.
Lemma t_reset_F (o : bool) (X Y : nset) l : plain X -> plain Y -> tri (F o X Y l) obj_reset_arr (fun s => F false X Y l s /\ ptr s Obj = None) (fun _ => False).
Proof. clear fail.
  intros HX HY. eapply tri_weak; [apply (t_reset o X Y l)| | |contradiction].
  - intros j Hj. apply HX; auto.
  - intros s Hs. eapply Inv_mono; [exact Hs|auto| |].
    + intros j [Hj _]. left; auto.
    + intros j [Hj _]. auto.
  - intros s [Hs HO]. split; auto. eapply Inv_mono; [exact Hs|auto|auto|]. intros j Hj. split; auto. apply HY; auto.
Qed.
Lemma t_fft0 (o : bool) (X Y : nset) l n : plain X -> plain Y ->
  tri (F o X Y l) (fft0_arr fail n) (F (sel n) X Y l) (F false X Y l).
Proof.
  intros HX HY. unfold fft0_arr. eapply t_seq; [apply t_reset_F; auto|]. unfold sel. destruct (select n) as [e|].
  - eapply tri_weak with (Q := F true X Y l) (R := fun s => F false X Y l s /\ ptr s Obj = None); [|intros s Hs; exact Hs|auto|intros s [Hs _]; exact Hs].
    eapply tri_onthrow with (R' := fun s => exists o', Inv o' (noeng X) (noeng Y) l s).
    + eapply tri_seq with (Q := F true X Y l); [eapply tri_weak; [apply (t_instance X Y l HX HY)|auto|auto|]|].
      * intros s [Hs _]. exists false. eapply Inv_mono; [exact Hs|auto| |]; intros j [Hj _]; auto. left; auto.
      * eapply tri_weak; [apply (t_engine (witheng X) Y l e)| | |].
        -- intros j Hj. right; auto.
        -- intros j Hj. apply HY; auto.
        -- auto.
        -- auto.
        -- intros s Hs. exists true. eapply Inv_mono; [exact Hs|auto| |]; intros j [Hj Hn]; split; auto. left; auto.
    + intros s (o' & Hs). pose proof (t_reset o' X Y l (fun j Hj => proj1 (HX j Hj)) s Hs) as H.
      destruct (obj_reset_arr s) as [[] s']; [|contradiction]. destruct H as [H HO]. split; auto.
      eapply Inv_mono; [exact H|auto|auto|]. intros j Hj. split; auto. apply HY; auto.
  - eapply tri_weak; [apply tri_ok with (R := fun _ => False)| | |contradiction]; intros s Hs; [exact Hs|apply Hs].
Qed.
Lemma t_fft0_dtor (o : bool) (X Y : nset) l : plain X -> plain Y ->
  tri (F o X Y l) fft0_dtor (fun s => F false X Y l s /\ ptr s Obj = None) (fun _ => False).
Proof. clear fail.
  intros HX HY. unfold fft0_dtor. eapply t_seq; [apply t_reset_F; auto|]. eapply tri_weak; [apply (t_reset_F false X Y l HX HY)| |auto|auto].
  intros s [Hs _]. exact Hs.
Qed.
Lemma t_fft0_call (X Y : nset) l : tri (F true X Y l) fft0_call (F true X Y l) (fun _ => False).
Proof.
  intros s Hs. unfold fft0_call. pose proof (v_o _ _ _ _ _ Hs eq_refl) as HO. destruct (ptr s Obj); [|congruence].
  assert (H : tri (F true X Y l) (use_if EW ;> use_if EWm ;> use_if EWs ;> use_if EIv) (F true X Y l) (fun _ => False)).
  { repeat eapply t_seq; apply t_use_if; right; unfold eng; auto. }
  exact (H s Hs).
Qed.
Lemma t_arr (o : bool) (X Y : nset) l i n : i <> Obj -> ~ eng i -> tri (F o X Y l) (arr_setup fail i n ;> take i) (F o (plus X i) (plus Y i) l) (F o (minus X i) Y l).
Proof.
  intros Hi He. eapply tri_weak; [apply (t_setup_take o (witheng X) Y l i n Hi); intros; contradiction|auto| |];
    intros s Hs; (eapply Inv_mono; [exact Hs|auto| |auto]).
  - intros j [[Hj|Hj]|Hj]; [left; left; auto|right; auto|left; right; auto].
  - intros j [Hj|Hj]; [destruct Hj; split; [left; auto|auto]|]. split; [right; auto|]. intros ->. auto.
Qed.
Lemma t_arr_dtor (o : bool) (X Y : nset) l i : i <> Obj -> ~ eng i -> tri (F o X Y l) (arr_dtor i) (F o (minus X i) Y l) (fun _ => False).
Proof.
  intros Hi He. eapply tri_weak; [apply (t_release o (witheng X) Y l i Hi)|auto| |auto].
  intros s Hs. eapply Inv_mono; [exact Hs|auto| |auto]. intros j [Hj|Hj]; [destruct Hj; split; [left; auto|auto]|]. split; [right; auto|]. intros ->. auto.
Qed.
Lemma t_arr_destroy (o : bool) (X Y : nset) l i : i <> Obj -> ~ eng i -> tri (F o X Y l) (arr_destroy i) (F o (minus X i) Y l) (fun _ => False).
Proof. exact (t_arr_dtor o X Y l i). Qed.
Lemma t_use_F (o : bool) (X Y : nset) l i : X i -> Y i -> tri (F o X Y l) (use i) (F o X Y l) (fun _ => False).
Proof. intros HX HY. apply t_use; auto. left; auto. Qed.
Lemma F_weak (o o' : bool) (X X' Y Y' : nset) l s : F o X Y l s -> (o' = true -> o = true) -> (forall j, X' j -> X j) -> (forall j, Y' j -> Y j) -> F o' X' Y' l s.
Proof. intros H Ho HX HY. eapply Inv_mono; [exact H|auto| |auto]. intros j [Hj|Hj]; [left; auto|right; auto]. Qed.
Lemma t_len (o : bool) (X Y : nset) l n : tri (F o X Y l) (do_ (set_len n)) (F o X Y n) (fun _ => False).
Proof. apply tri_do. intros s []. constructor; auto. Qed.
Lemma tri_conj P Q R P' Q' R' c : tri P c Q R -> tri P' c Q' R' -> tri (fun s => P s /\ P' s) c (fun s => Q s /\ Q' s) (fun s => R s /\ R' s).
Proof. intros H H' s [Hs Hs']. specialize (H s Hs). specialize (H' s Hs'). destruct (c s) as [[] s']; auto. Qed.

(** ** which pointers are empty *)
Definition G (Z : nset) (s : st) : Prop := forall i, Z i -> ptr s i = None.
Definition low (Z : nset) : nset := fun j => Z j /\ ~ eng j /\ j <> Obj.
Lemma G_weak (Z Z' : nset) s : G Z s -> (forall j, Z' j -> Z j) -> G Z' s.
Proof. intros H HZ i Hi. auto. Qed.
Lemma g_setup (Z : nset) i n : ~ Z i -> tri (G Z) (arr_setup fail i n) (G Z) (G Z).
Proof.
  intros Hi s Hs. unfold arr_setup, andthen, free_of, malloc_to, check.
  destruct (ptr s i); cbn [event nreq]; destruct (fail (nreq s)); cbn [set_ptr event ptr]; rewrite upd_eq; intros j Hj; cbn [set_ptr event ptr];
    rewrite upd_ne by (intros ->; contradiction); auto.
Qed.
Lemma g_dtor (Z : nset) i : tri (G Z) (arr_dtor i) (G (plus Z i)) (fun _ => False).
Proof.
  intros s Hs. unfold arr_dtor, andthen, free_of, do_. destruct (ptr s i); intros j Hj; cbn [set_ptr event ptr];
    (destruct (name_dec i j) as [<-|Hne]; [apply upd_eq|rewrite upd_ne by auto]; destruct Hj as [Hj| ->]; [auto|congruence]).
Qed.
Lemma g_take Z i : tri (G Z) (take i) (G Z) (fun _ => False).
Proof. intros s Hs. exact Hs. Qed.
Lemma g_null Z i : tri (G Z) (null i) (G Z) (fun _ => False).
Proof. intros s Hs. exact Hs. Qed.
Lemma g_use Z i : tri (G Z) (use i) (G Z) (fun _ => False).
Proof. intros s Hs. unfold use. destruct (ali s i); exact Hs. Qed.
Lemma g_use_if Z i : tri (G Z) (use_if i) (G Z) (fun _ => False).
Proof. intros s Hs. unfold use_if. destruct (ali s i); exact Hs. Qed.
Lemma g_do Z f : (forall s, ptr (f s) = ptr s) -> tri (G Z) (do_ f) (G Z) (fun _ => False).
Proof. intros Hf s Hs. unfold do_. intros j Hj. rewrite Hf. auto. Qed.
Lemma g_ctor0 Z i : tri (G Z) (arr_ctor0 i) (G Z) (fun _ => False).
Proof. intros s Hs. unfold arr_ctor0, do_. intros j Hj. cbn. destruct (name_dec i j) as [<-|]; [apply upd_eq|rewrite upd_ne; auto]. Qed.
Lemma t_false (P Q R : st -> Prop) c : tri P c Q (fun _ => False) -> tri P c Q R.
Proof. intros H. eapply tri_weak; [exact H|auto|auto|contradiction]. Qed.
Lemma g_reset Z : tri (G Z) obj_reset_arr (G (plus Z Obj)) (fun _ => False).
Proof. clear fail.
  intros s Hs. unfold obj_reset_arr. destruct (ptr s Obj) eqn:E; [|intros j [Hj| ->]; auto].
  assert (H : tri (G Z) (arr_dtor EIv ;> arr_dtor EWs ;> arr_dtor EWm ;> arr_dtor EW ;> null EIv ;> null EWs ;> null EWm ;> null EW ;>
               free_of Obj ;> do_ (set_ptr Obj None)) (G (plus Z Obj)) (fun _ => False)).
  { apply tri_assoc. eapply tri_seq with (Q := G Z); [|apply (g_dtor Z Obj)].
    eapply tri_weak with (P := G Z) (Q := G (plus (plus (plus (plus Z EIv) EWs) EWm) EW)) (R := fun _ => False); [|auto| |auto].
    - repeat (eapply tri_seq; [|apply g_null]). repeat (eapply tri_seq; [|apply g_dtor]). apply g_dtor.
    - intros s' H i Hi. apply H. unfold plus. auto 6. }
  exact (H s Hs).
Qed.
Lemma g_table (Z : nset) i n : ~ Z i -> tri (G Z) (table fail i n) (G Z) (G Z).
Proof. intros Hi. unfold table. eapply tri_seq; [|apply t_false, g_use]. eapply tri_seq; [apply g_setup; auto|apply t_false, g_take]. Qed.
Lemma g_sub (Z : nset) i n : ~ Z i -> tri (G Z) (sub_arr fail i n) (G Z) (G Z).
Proof. intros Hi. unfold sub_arr. destruct (n <=? 8); [apply t_false, g_null|apply g_table; auto]. Qed.
Lemma g_nxn (Z : nset) i n : ~ Z i -> ~ Z EIv -> tri (G Z) (nxn_arr fail i n) (G Z) (G Z).
Proof.
  intros Hi Hv. unfold nxn_arr. cbv zeta. eapply tri_seq; [|apply t_false, g_use]. eapply tri_seq; [|apply t_false, g_use].
  eapply tri_seq; [|apply t_false, g_take]. eapply tri_seq; [|apply g_setup; auto]. eapply tri_seq; [apply g_setup; auto|apply t_false, g_take].
Qed.
Lemma g_engine (Z : nset) e : (forall j, Z j -> ~ eng j) -> tri (G Z) (engine_arr fail e) (G Z) (G Z).
Proof.
  intros HZ. assert (N1 : ~ Z EW) by (intros H; apply (HZ _ H); unfold eng; auto). assert (N2 : ~ Z EWm) by (intros H; apply (HZ _ H); unfold eng; auto).
  assert (N3 : ~ Z EWs) by (intros H; apply (HZ _ H); unfold eng; auto). assert (N4 : ~ Z EIv) by (intros H; apply (HZ _ H); unfold eng; auto).
  destruct e as [a n|n|N]; cbn [engine_arr].
  - unfold pow_arr. cbv zeta. destruct (2 ^ n <=? radix a); [apply t_false, g_null|]. destruct (2 ^ n <? omp_min a); apply g_table; auto.
  - unfold six_arr. cbv zeta. destruct (n <=? 5); [apply g_sub; auto|]. destruct (Nat.odd n).
    + eapply tri_seq; [|apply g_sub; auto]. eapply tri_seq; [apply g_table; auto|apply g_nxn; auto].
    + eapply tri_seq; [|apply g_sub; auto]. apply g_nxn; auto.
  - apply g_table; auto.
Qed.
Lemma g_instance (Z : nset) : ~ Z Obj -> tri (G Z) (instance fail) (G Z) (G Z).
Proof.
  intros HZ. unfold instance. repeat (eapply tri_seq; [|apply t_false; first [apply g_null|apply g_ctor0]]).
  intros s Hs. unfold andthen, malloc_to, check. destruct (fail (nreq s)); cbn [set_ptr ptr]; rewrite upd_eq; intros j Hj; cbn [set_ptr ptr];
    rewrite upd_ne by (intros <-; contradiction); auto.
Qed.
Lemma g_fft0 (Z : nset) n : ~ Z Obj -> (forall j, Z j -> ~ eng j) -> tri (G Z) (fft0_arr fail n) (G Z) (G Z).
Proof.
  intros HO HZ. assert (R : tri (G Z) obj_reset_arr (G Z) (fun _ => False)).
  { eapply tri_weak; [apply (g_reset Z)|auto| |auto]. intros s Hs. eapply G_weak; [exact Hs|]. intros j Hj. left. auto. }
  unfold fft0_arr. eapply tri_seq; [apply t_false, R|]. destruct (select n) as [e|]; [|apply tri_ok].
  eapply tri_onthrow; [|apply t_false, R]. eapply tri_seq; [apply g_instance; auto|apply g_engine; auto].
Qed.
Lemma g_fft0_dtor Z : tri (G Z) fft0_dtor (G (plus Z Obj)) (fun _ => False).
Proof. clear fail.
  unfold fft0_dtor. eapply t_seq; [apply g_reset|]. eapply tri_weak; [apply (g_reset (plus Z Obj))|auto| |auto].
  intros s Hs. eapply G_weak; [exact Hs|]. intros j Hj. left. auto.
Qed.
End Facts.
