(** * The mixed-radix driver: all four recursive functions follow the same plan (any arithmetic) *)

From Coq Require Import List Arith ZArith Bool Lia.
From Verif Require Import Scalar Mem MemFacts Omp OmpFacts Lanes Butterfly Stage CoreStage ModelMixed MixedStage FactorFacts.
Import ListNotations.

Section Drive.
Context {V : Type}.
Notation F := ((nat -> V) -> (nat -> V) -> nat -> V).

(** ** The value computed, given the values computed by the passes *)
Section Pure.
Variables (eF : nat -> nat -> F) (cF : nat -> nat -> nat -> F) (aeF : nat -> nat -> F) (acF : nat -> nat -> nat -> F).

Fixpoint any_ff (fuel r n s : nat) (T X : nat -> V) : nat -> V :=
  match fuel with
  | O => X
  | S fuel' =>
      match find_factor n r n with
      | None => X
      | Some k =>
          if k =? n then aeF k s T X
          else any_ff fuel' k (n / k) (k * s) T (acF k (n / k) s T X)
      end
  end.

Definition step_ff (rec : nat -> nat -> F) (r n s : nat) (T X : nat -> V) : nat -> V :=
  if n =? r then eF r s T X else rec (n / r) (r * s) T (cF r (n / r) s T X).

Fixpoint fft_ff (fuel n s : nat) (T X : nat -> V) : nat -> V :=
  match fuel with
  | O => X
  | S fuel' =>
      if n * s <? 2 then X
      else if n mod 8 =? 0 then step_ff (fft_ff fuel') 8 n s T X
      else if n mod 4 =? 0 then step_ff (fft_ff fuel') 4 n s T X
      else if n mod 2 =? 0 then step_ff (fft_ff fuel') 2 n s T X
      else if n mod 5 =? 0 then step_ff (fft_ff fuel') 5 n s T X
      else if n mod 3 =? 0 then step_ff (fft_ff fuel') 3 n s T X
      else any_ff fuel' 7 n s T X
  end.
End Pure.

(** ** The plan *)
Section Plan.
Variables (A : Type) (seq : A -> A -> A) (nop bad : A).
Variables (ek : nat -> nat -> bool -> ptr -> ptr -> ptr -> A) (ck : nat -> nat -> nat -> ptr -> ptr -> ptr -> A).
Variables (aek : nat -> nat -> ptr -> ptr -> ptr -> A) (ack : nat -> nat -> nat -> ptr -> ptr -> ptr -> A).
Variable cpy : nat -> ptr -> ptr -> A.

Fixpoint drive_any (fuel r n s : nat) (eo : bool) (x y W : ptr) : A :=
  match fuel with
  | O => bad
  | S fuel' =>
      let N := n * s in
      match find_factor n r n with
      | None => bad
      | Some k =>
          if k =? n then
            seq (aek k s x y W) (if eo then nop else cpy N x y)
          else
            let m := n / k in
            seq (ack k m s x y W) (drive_any fuel' k m (k * s) (negb eo) y x W)
      end
  end.

Fixpoint drive (fuel n s : nat) (eo : bool) (x y W : ptr) : A :=
  match fuel with
  | O => bad
  | S fuel' =>
      let N := n * s in
      if N <? 2 then nop
      else if n mod 8 =? 0 then
        if n =? 8 then ek 8 s eo x y W
        else seq (ck 8 n s x y W) (drive fuel' (n / 8) (8 * s) (negb eo) y x W)
      else if n mod 4 =? 0 then
        if n =? 4 then ek 4 s eo x y W
        else seq (ck 4 n s x y W) (drive fuel' (n / 4) (4 * s) (negb eo) y x W)
      else if n mod 2 =? 0 then
        if n =? 2 then ek 2 s eo x y W
        else seq (ck 2 n s x y W) (drive fuel' (n / 2) (2 * s) (negb eo) y x W)
      else if n mod 5 =? 0 then
        if n =? 5 then ek 5 s eo x y W
        else seq (ck 5 n s x y W) (drive fuel' (n / 5) (5 * s) (negb eo) y x W)
      else if n mod 3 =? 0 then
        if n =? 3 then ek 3 s eo x y W
        else seq (ck 3 n s x y W) (drive fuel' (n / 3) (3 * s) (negb eo) y x W)
      else drive_any fuel' 7 n s eo x y W
  end.

Variable CP : A -> ptr -> nat -> ptr -> (nat -> Prop) -> (loc -> Prop) -> ptr -> nat -> F -> Prop.
Variables (eF : nat -> nat -> F) (cF : nat -> nat -> nat -> F) (aeF : nat -> nat -> F) (acF : nat -> nat -> nat -> F).

Definition ok3 (x y W : ptr) (N : nat) : Prop :=
  disjR x N y N /\ disjR W (S N) x N /\ disjR W (S N) y N.

Definition radix (r : nat) : Prop := r = 8 \/ r = 4 \/ r = 2 \/ r = 5 \/ r = 3.
Definition even_or_1 (s : nat) : Prop := s = 1 \/ exists h, s = 2 * h.

Definition Xout (eo : bool) (x y : ptr) : ptr := if eo then y else x.

Hypothesis CP_seq : forall p1 p2 x Nx y Ny z Nz W NW (Ws1 Ws2 Ws : loc -> Prop) F1 F2,
  CP p1 x Nx W NW Ws1 y Ny F1 -> CP p2 y Ny W NW Ws2 z Nz F2 ->
  (forall l, Ws1 l -> ~ inT W NW l) ->
  (forall l, Ws1 l -> Ws l) -> (forall l, Ws2 l -> Ws l) -> (forall l, inR y Ny l -> Ws l) ->
  CP (seq p1 p2) x Nx W NW Ws z Nz (fun T X => F2 T (F1 T X)).
Hypothesis CP_ext : forall p x N W NW Ws out M F G,
  CP p x N W NW Ws out M F -> (forall T X i, i < M -> F T X i = G T X i) -> CP p x N W NW Ws out M G.
Hypothesis CP_weaken : forall p x N W NW (Ws Ws' : loc -> Prop) out M F,
  CP p x N W NW Ws out M F -> (forall l, Ws l -> Ws' l) -> CP p x N W NW Ws' out M F.
Hypothesis CP_nop : forall x N W NW Ws, CP nop x N W NW Ws x N (fun T X => X).
Hypothesis He : forall r s eo x y W, radix r -> 0 < s -> (even_or_1 s \/ r = 5 \/ r = 3) -> ok3 x y W (r * s) ->
  CP (ek r s eo x y W) x (r * s) W (Lt (S (r * s))) (inR (Xout eo x y) (r * s)) (Xout eo x y) (r * s) (eF r s).
Hypothesis Hc : forall r m s x y W, radix r -> 0 < m -> 0 < s -> (even_or_1 s \/ r = 5 \/ r = 3) -> ok3 x y W (r * m * s) ->
  CP (ck r (r * m) s x y W) x (r * m * s) W (Lt (S (r * m * s))) (inR y (r * m * s)) y (r * m * s) (cF r m s).
Hypothesis Hae : forall k s x y W, 0 < k -> 0 < s -> mul_ok k k = true -> ok3 x y W (k * s) ->
  CP (aek k s x y W) x (k * s) W (Lt (S (k * s))) (inR y (k * s)) y (k * s) (aeF k s).
Hypothesis Hac : forall k m s x y W, 0 < k -> 0 < m -> 0 < s -> mul_ok k k = true -> ok3 x y W (k * m * s) ->
  CP (ack k m s x y W) x (k * m * s) W (Lt (S (k * m * s))) (inR y (k * m * s)) y (k * m * s) (acF k m s).
Hypothesis Hcp : forall N x y W NW, disjR y N x N -> CP (cpy N x y) y N W NW (inR x N) x N (fun T X => X).

Lemma ok3_swap x y W N : ok3 x y W N -> ok3 y x W N.
Proof. intros (H1 & H2 & H3). split; [apply disjR_sym; auto|auto]. Qed.

Lemma Xout_swap eo x y : Xout (negb eo) y x = Xout eo x y.
Proof. destruct eo; reflexivity. Qed.

Lemma disj_notin p n p' n' l : disjR p n p' n' -> inR p' n' l -> ~ inR p n l.
Proof. intros H H1. apply disjR_sym in H. eapply disjR_inR; eauto. Qed.

Lemma drive_any_C fuel : forall r n s eo x y W,
  n <= fuel -> 2 <= n -> 0 < s -> Nat.Odd n -> Nat.Odd r -> 2 <= r -> none_below r n -> mul_ok r r = true ->
  (Z.of_nat n <= 2 ^ 30)%Z -> factors_fit n -> ok3 x y W (n * s) ->
  CP (drive_any fuel r n s eo x y W) x (n * s) W (Lt (S (n * s))) (fun l => inR x (n * s) l \/ inR y (n * s) l)
    (Xout eo x y) (n * s) (any_ff aeF acF fuel r n s).
Proof.
  induction fuel as [|fuel IH]; intros r n s eo x y W Hf Hn Hs Hon Hor Hr Hnb Hm Hz Hfit Hok; [lia|].
  cbn [drive_any].
  destruct (find_factor_spec n r n) as (k & Ek & Hk); auto; try lia.
  rewrite Ek.
  pose proof (smallest_prime _ _ Hk) as Hpk.
  pose proof Hk as (Hk2 & Hkd & Hkm).
  pose proof (Hfit k Hpk Hkd) as Hkk.
  pose proof Hok as (Hxy & HWx & HWy).
  destruct (Nat.eqb_spec k n) as [Ekn|Hne].
  - eapply CP_ext.
    2:{ intros T X i Hi. cbn [any_ff]. rewrite Ek. apply Nat.eqb_eq in Ekn. rewrite Ekn. reflexivity. }
    subst k.
    destruct eo; cbn [Xout].
    + apply (CP_seq _ _ x (n * s) y (n * s) y (n * s) W (Lt (S (n * s))) (inR y (n * s)) (fun _ => False) _ (aeF n s) (fun T X => X)).
      * apply Hae; auto; lia.
      * apply CP_nop.
      * intros l. apply disj_notin; auto.
      * auto.
      * intros l [].
      * auto.
    + apply (CP_seq _ _ x (n * s) y (n * s) x (n * s) W (Lt (S (n * s))) (inR y (n * s)) (inR x (n * s)) _ (aeF n s) (fun T X => X)).
      * apply Hae; auto; lia.
      * apply Hcp. apply disjR_sym; auto.
      * intros l. apply disj_notin; auto.
      * auto.
      * auto.
      * auto.
  - destruct Hkd as [m Em].
    assert (Em' : n = k * m) by lia.
    assert (En : n / k = m) by (rewrite Em', Nat.mul_comm, Nat.div_mul; lia).
    assert (Hm0 : m <> 0) by (intros ->; lia).
    assert (Hm1 : m <> 1) by (intros ->; lia).
    assert (Hdm : Nat.divide m n) by (exists k; lia).
    rewrite En.
    eapply CP_ext.
    2:{ intros T X i Hi. cbn [any_ff]. rewrite Ek. apply Nat.eqb_neq in Hne. rewrite Hne, En. reflexivity. }
    assert (EN : n * s = k * m * s) by nia. assert (EN2 : m * (k * s) = n * s) by nia.
    apply (CP_seq _ _ x (n * s) y (n * s) _ (n * s) W (Lt (S (n * s))) (inR y (n * s)) (fun l => inR y (n * s) l \/ inR x (n * s) l) _ (acF k m s) (any_ff aeF acF fuel k m (k * s))).
    + rewrite EN. apply Hac; auto; try lia. rewrite <- EN. auto.
    + rewrite <- EN2. rewrite <- Xout_swap. apply IH; auto; try lia.
      * nia.
      * apply (odd_divide _ n); auto.
      * eapply odd_divide; [exact Hon|]. exists m; auto.
      * eapply smallest_none_below; eauto.
      * eapply factors_fit_div; eauto.
      * rewrite EN2. apply ok3_swap. auto.
    + intros l. apply disj_notin; auto.
    + auto.
    + tauto.
    + auto.
Qed.

(** precondition on the stride: SIMD blocks never straddle the end of an array *)
Lemma drive_C fuel : forall n s eo x y W,
  n < fuel -> 0 < n -> 0 < s -> (n * s < 2 -> eo = false) -> (n = 1 -> s = 1) ->
  (even_or_1 s \/ Nat.Odd n) ->
  (Z.of_nat n <= 2 ^ 30)%Z -> factors_fit n -> ok3 x y W (n * s) ->
  CP (drive fuel n s eo x y W) x (n * s) W (Lt (S (n * s))) (fun l => inR x (n * s) l \/ inR y (n * s) l)
    (Xout eo x y) (n * s) (fft_ff eF cF aeF acF fuel n s).
Proof.
  induction fuel as [|fuel IH]; intros n s eo x y W Hf Hn Hs Heo Hn1 Hev Hz Hfit Hok; [lia|].
  assert (Hstep : forall r, radix r -> n mod r = 0 ->
    (even_or_1 s \/ r = 5 \/ r = 3) -> (even_or_1 (r * s) \/ Nat.Odd (n / r)) -> 
    (n =? r = false -> 2 <= n / r /\ n / r < fuel) ->
    CP (if n =? r then ek r s eo x y W else seq (ck r n s x y W) (drive fuel (n / r) (r * s) (negb eo) y x W))
      x (n * s) W (Lt (S (n * s))) (fun l => inR x (n * s) l \/ inR y (n * s) l) (Xout eo x y) (n * s)
      (step_ff eF cF (fft_ff eF cF aeF acF fuel) r n s)).
  { intros r Hr Hmod Hevr Hevr2 Hlt. pose proof Hok as (Hxy & HWx & HWy).
    destruct (n =? r) eqn:Enr.
    - apply Nat.eqb_eq in Enr. subst n.
      eapply CP_ext.
      2:{ intros T X i Hi. unfold step_ff. rewrite Nat.eqb_refl. reflexivity. }
      eapply CP_weaken; [apply He; auto|]. intros l. destruct eo; cbn; auto.
    - destruct (Hlt eq_refl) as (Hm2 & Hmf). 
      assert (Hr0 : 0 < r) by (destruct Hr as [->|[->|[->|[->| ->]]]]; lia).
      assert (En : n = r * (n / r)) by (apply Nat.div_exact in Hmod; lia).
      set (m := n / r) in *.
      eapply CP_ext.
      2:{ intros T X i Hi. unfold step_ff. rewrite Enr. reflexivity. }
      fold m.
      assert (EN : n * s = r * m * s) by (rewrite En; reflexivity). assert (EN2 : m * (r * s) = n * s) by (rewrite EN; lia).
      apply (CP_seq _ _ x (n * s) y (n * s) _ (n * s) W (Lt (S (n * s))) (inR y (n * s)) (fun l => inR y (n * s) l \/ inR x (n * s) l) _ (cF r m s) (fft_ff eF cF aeF acF fuel m (r * s))).
      + rewrite En at 1. rewrite EN. apply Hc; auto; try lia. rewrite <- EN. auto.
      + rewrite <- EN2. rewrite <- Xout_swap. apply IH; auto; try lia.
        * eapply factors_fit_div; [exact Hfit|]. exists r. lia.
        * rewrite EN2. apply ok3_swap. auto.
      + intros l. apply disj_notin; auto.
      + auto.
      + tauto.
      + auto. }
  cbn [drive fft_ff].
  destruct (Nat.ltb_spec (n * s) 2) as [H2|H2].
  { eapply CP_ext; [|intros; reflexivity].
    rewrite (Heo H2). apply CP_nop. }
  assert (E2 : (n * s <? 2) = false) by (apply Nat.ltb_ge; auto).
  assert (Hbig : 2 <= n) by (destruct (Nat.eq_dec n 1) as [->|]; [rewrite (Hn1 eq_refl) in H2; lia|lia]).
  assert (Hq : forall r, 2 <= r -> n mod r = 0 -> n =? r = false -> 2 <= n / r /\ n / r < fuel).
  { intros r Hr Hmod Hne. apply Nat.eqb_neq in Hne. apply Nat.div_exact in Hmod; [|lia].
    set (m := n / r) in *. assert (m <> 0) by (intros E; rewrite E in Hmod; lia).
    assert (m <> 1) by (intros E; rewrite E in Hmod; lia). split; [lia|nia]. }
  assert (Hevs : n mod 2 = 0 -> even_or_1 s).
  { intros Hm. destruct Hev as [|[b Hb]]; auto. exfalso. apply Nat.mod_divide in Hm; [|lia]. destruct Hm as [c Hc']. lia. }
  assert (Hdiv2 : forall r, Nat.divide 2 r -> 2 <= r -> n mod r = 0 -> n mod 2 = 0).
  { intros r Hr Hr2 Hm. apply Nat.mod_divide in Hm; [|lia]. apply Nat.mod_divide; [lia|]. eapply Nat.divide_trans; eauto. }
  assert (Heven : forall r, Nat.divide 2 r -> even_or_1 (r * s)).
  { intros r [c ->]. right. exists (c * s). lia. }
  assert (H28 : Nat.divide 2 8) by (exists 4; lia).
  assert (H24 : Nat.divide 2 4) by (exists 2; lia).
  assert (H22 : Nat.divide 2 2) by (exists 1; lia).
  assert (Hstep2 : forall r, radix r -> Nat.divide 2 r -> 2 <= r -> n mod r = 0 -> 
    CP (if n =? r then ek r s eo x y W else seq (ck r n s x y W) (drive fuel (n / r) (r * s) (negb eo) y x W))
      x (n * s) W (Lt (S (n * s))) (fun l => inR x (n * s) l \/ inR y (n * s) l) (Xout eo x y) (n * s)
      (step_ff eF cF (fft_ff eF cF aeF acF fuel) r n s)).
  { intros r Hr Hd2 Hr2 Hm. apply Hstep; eauto. }
  destruct (Nat.eqb_spec (n mod 8) 0) as [E8|E8].
  { eapply CP_ext; [|intros; reflexivity]. apply Hstep2; auto; [unfold radix; auto|lia]. }
  destruct (Nat.eqb_spec (n mod 4) 0) as [E4|E4].
  { eapply CP_ext; [|intros; reflexivity]. apply Hstep2; auto; unfold radix; auto. }
  destruct (Nat.eqb_spec (n mod 2) 0) as [E22|E22].
  { eapply CP_ext; [|intros; reflexivity]. apply Hstep2; auto; unfold radix; auto. }
  assert (Hodd : Nat.Odd n).
  { destruct (Nat.Even_or_Odd n) as [[c Hc']|H]; auto. exfalso. apply E22. apply Nat.mod_divide; [lia|]. exists c. lia. }
  assert (Hoddq : forall r, 2 <= r -> n mod r = 0 -> Nat.Odd (n / r)).
  { intros r Hr Hmod. apply Nat.div_exact in Hmod; [|lia]. eapply odd_divide; [exact Hodd|]. exists r. lia. }
  assert (Hstep5 : forall r, radix r -> r = 5 \/ r = 3 -> n mod r = 0 -> 
    CP (if n =? r then ek r s eo x y W else seq (ck r n s x y W) (drive fuel (n / r) (r * s) (negb eo) y x W))
      x (n * s) W (Lt (S (n * s))) (fun l => inR x (n * s) l \/ inR y (n * s) l) (Xout eo x y) (n * s)
      (step_ff eF cF (fft_ff eF cF aeF acF fuel) r n s)).
  { intros r Hr H53 Hm. assert (2 <= r) by (destruct H53; lia). apply Hstep; auto. }
  destruct (Nat.eqb_spec (n mod 5) 0) as [E5|E5].
  { eapply CP_ext; [|intros; reflexivity]. apply Hstep5; auto; unfold radix; auto. }
  destruct (Nat.eqb_spec (n mod 3) 0) as [E3|E3].
  { eapply CP_ext; [|intros; reflexivity]. apply Hstep5; auto; unfold radix; auto 10. }
  eapply CP_ext; [|intros; reflexivity].
  apply drive_any_C; auto; try lia.
  - exists 3. lia.
  - intros e He2 Hlt Hd.
    assert (Hnd : forall a b, Nat.divide a b -> 0 < a -> n mod a <> 0 -> ~ Nat.divide b n).
    { intros a b Hab Ha Hna Hbn. apply Hna. apply Nat.mod_divide; [lia|]. eapply Nat.divide_trans; eauto. }
    assert (Hcase : e = 2 \/ e = 3 \/ e = 4 \/ e = 5 \/ e = 6) by lia.
    destruct Hcase as [->|[->|[->|[->| ->]]]].
    + apply (Hnd 2 2); auto using Nat.divide_refl; lia.
    + apply (Hnd 3 3); auto using Nat.divide_refl; lia.
    + apply (Hnd 2 4); auto; lia.
    + apply (Hnd 5 5); auto using Nat.divide_refl; lia.
    + apply (Hnd 2 6); auto; exists 3; lia.
Qed.

End Plan.
End Drive.
