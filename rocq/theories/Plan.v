(** * The passes of the mixed-radix transform: specification and proof *)

From Coq Require Import List Arith ZArith Bool Lia.
From Verif Require Import Scalar Mem Omp Lanes ModelMixed FactorFacts MixedDrive MixedRun.
Import ListNotations.

(** ** Specification *)
(** one pass: hand-written butterfly of radix 8, 4, 2, 5 or 3, or the generic pass of radix k *)
Inductive pass := Fixed (r : nat) | Generic (k : nat).
Definition pass_radix (p : pass) : nat := match p with Fixed r => r | Generic k => k end.

(** the hand-written radix used for length n: the first of 8, 4, 2, 5, 3 that divides n *)
Definition first_radix (n r : nat) : Prop :=
  (r = 8 /\ Nat.divide 8 n) \/
  (r = 4 /\ Nat.divide 4 n /\ ~ Nat.divide 8 n) \/
  (r = 2 /\ Nat.divide 2 n /\ ~ Nat.divide 4 n) \/
  (r = 5 /\ Nat.divide 5 n /\ ~ Nat.divide 2 n) \/
  (r = 3 /\ Nat.divide 3 n /\ ~ Nat.divide 2 n /\ ~ Nat.divide 5 n).

(** the passes for a transform of length n *)
Inductive plan : nat -> list pass -> Prop :=
| plan_1 : plan 1 []
| plan_fixed n r rest : 1 < n -> first_radix n r -> plan (n / r) rest -> plan n (Fixed r :: rest)
| plan_generic n k rest : 1 < n -> ~ Nat.divide 2 n -> ~ Nat.divide 3 n -> ~ Nat.divide 5 n ->
    smallest_divisor k n -> plan (n / k) rest -> plan n (Generic k :: rest).

Section Compose.
Variables (A : Type) (seq : A -> A -> A) (nop : A).
Variables (ek : nat -> nat -> bool -> ptr -> ptr -> ptr -> A) (ck : nat -> nat -> nat -> ptr -> ptr -> ptr -> A).
Variables (aek : nat -> nat -> ptr -> ptr -> ptr -> A) (ack : nat -> nat -> nat -> ptr -> ptr -> ptr -> A).
Variable cpy : nat -> ptr -> ptr -> A.
(** the passes executed one after the other, x and y alternating; the last pass is the `end' variant *)
Fixpoint compose (ps : list pass) (n s : nat) (eo : bool) (x y W : ptr) : A :=
  match ps with
  | [] => nop
  | Fixed r :: rest =>
      match rest with
      | [] => ek r s eo x y W
      | _ => seq (ck r n s x y W) (compose rest (n / r) (r * s) (negb eo) y x W)
      end
  | Generic k :: rest =>
      match rest with
      | [] => seq (aek k s x y W) (if eo then nop else cpy (n * s) x y)
      | _ => seq (ack k (n / k) s x y W) (compose rest (n / k) (k * s) (negb eo) y x W)
      end
  end.
End Compose.

(** ** Proof *)
Lemma plan_pos n ps : plan n ps -> 0 < n.
Proof. destruct 1; lia. Qed.
Lemma first_radix_div n r : first_radix n r -> 1 < r /\ Nat.divide r n.
Proof. intros [(-> & H) | [(-> & H & _) | [(-> & H & _) | [(-> & H & _) | (-> & H & _)]]]]; split; auto; lia. Qed.
Lemma plan_radix n p rest : plan n (p :: rest) -> 1 < pass_radix p /\ Nat.divide (pass_radix p) n /\ plan (n / pass_radix p) rest.
Proof.
  intros H. inversion H; subst; cbn [pass_radix].
  - match goal with Hs : first_radix _ _ |- _ => destruct (first_radix_div _ _ Hs) end. auto.
  - match goal with Hs : smallest_divisor _ _ |- _ => destruct Hs as (? & ? & _) end. auto.
Qed.
Lemma plan_product n ps : plan n ps -> fold_right Nat.mul 1 (map pass_radix ps) = n.
Proof.
  revert n. induction ps as [|p ps IH]; intros n H; [inversion H; reflexivity|].
  destruct (plan_radix n p ps H) as (H1 & (c & E) & H2). cbn [map fold_right]. rewrite (IH _ H2). rewrite E, Nat.div_mul by lia. lia.
Qed.
Lemma plan_nil_iff n r ps : plan (n / r) ps -> 1 < r -> Nat.divide r n -> (ps = [] <-> n = r).
Proof.
  intros H Hr (c & ->). rewrite Nat.div_mul in H by lia. split.
  - intros ->. inversion H. lia.
  - intros E. assert (c = 1) by nia. subst c. inversion H; auto; lia.
Qed.

Lemma find_divisor n d : 2 <= d -> Nat.divide d n -> (forall e, 2 <= e -> e < d -> ~ Nat.divide e n) -> smallest_divisor d n.
Proof. intros H1 H2 H3. split; [auto|split; [auto|]]. intros e He Hd. destruct (Nat.le_gt_cases d e); auto. destruct (H3 e); auto. Qed.
Lemma divide_dec d n : Nat.divide d n \/ ~ Nat.divide d n.
Proof. destruct (Nat.eq_dec d 0) as [->|H]; [destruct (Nat.eq_dec n 0) as [->|]; [left; exists 0; lia|right; intros (c & E); lia]|].
  destruct (Nat.eq_dec (n mod d) 0) as [E|E]; rewrite Nat.mod_divide in E by auto; auto. Qed.
Lemma smallest_exists n : 2 <= n -> exists d, smallest_divisor d n.
Proof.
  intros Hn.
  assert (H : forall j, (exists d, smallest_divisor d n) \/ forall e, 2 <= e -> e < j -> ~ Nat.divide e n).
  { induction j as [|j [IH|IH]]; [right; lia|auto|].
    destruct (Nat.le_gt_cases 2 j) as [Hj|Hj]; [|right; intros e H1 H2; lia].
    destruct (divide_dec j n) as [Hd|Hd].
    - left. exists j. apply find_divisor; auto.
    - right. intros e H1 H2. destruct (Nat.eq_dec e j) as [->|]; auto. apply IH; lia. }
  destruct (H (S n)) as [Hd|Hd]; auto. exfalso. apply (Hd n); auto. apply Nat.divide_refl.
Qed.
Lemma div_lt_of n r : 1 < r -> 0 < n -> Nat.divide r n -> 0 < n / r < n.
Proof. intros Hr Hn (c & ->). rewrite Nat.div_mul by lia. nia. Qed.
Theorem plan_exists n : 0 < n -> exists ps, plan n ps.
Proof.
  induction n as [n IH] using lt_wf_ind. intros Hn. destruct (Nat.eq_dec n 1) as [->|H1]; [exists []; constructor|].
  assert (Step : forall r, first_radix n r -> exists ps, plan n ps).
  { intros r Hr. destruct (first_radix_div n r Hr) as (A & B). destruct (div_lt_of n r A Hn B).
    destruct (IH (n / r)) as (ps & Hp); [lia|lia|]. exists (Fixed r :: ps). constructor; auto; lia. }
  destruct (divide_dec 8 n) as [D8|D8]; [apply (Step 8); left; auto|].
  destruct (divide_dec 4 n) as [D4|D4]; [apply (Step 4); right; left; auto|].
  destruct (divide_dec 2 n) as [D2|D2]; [apply (Step 2); right; right; left; auto|].
  destruct (divide_dec 5 n) as [D5|D5]; [apply (Step 5); right; right; right; left; auto|].
  destruct (divide_dec 3 n) as [D3|D3]; [apply (Step 3); right; right; right; right; auto|].
  destruct (smallest_exists n) as (k & Hk); [lia|]. pose proof Hk as (K1 & K2 & _).
  destruct (div_lt_of n k) as (A & B); auto; try lia.
  destruct (IH (n / k)) as (ps & Hp); auto. exists (Generic k :: ps). constructor; auto; lia.
Qed.
Lemma smallest_unique d d' n : smallest_divisor d n -> smallest_divisor d' n -> d = d'.
Proof. intros (A1 & A2 & A3) (B1 & B2 & B3). assert (d <= d') by auto. assert (d' <= d) by auto. lia. Qed.

Section Drive.
Variables (A : Type) (seq : A -> A -> A) (nop bad : A).
Variables (ek : nat -> nat -> bool -> ptr -> ptr -> ptr -> A) (ck : nat -> nat -> nat -> ptr -> ptr -> ptr -> A).
Variables (aek : nat -> nat -> ptr -> ptr -> ptr -> A) (ack : nat -> nat -> nat -> ptr -> ptr -> ptr -> A).
Variable cpy : nat -> ptr -> ptr -> A.
Notation comp := (compose A seq nop ek ck aek ack cpy).

Lemma odd_not2 n : ~ Nat.divide 2 n -> Nat.Odd n.
Proof. intros H. destruct (Nat.Even_or_Odd n) as [(c & ->)|]; auto. exfalso. apply H. exists c. lia. Qed.

Lemma drive_any_plan ps : forall fuel r n s eo x y W,
  plan n ps -> 2 <= n -> n <= fuel -> Nat.Odd n -> ~ Nat.divide 3 n -> ~ Nat.divide 5 n ->
  Nat.Odd r -> 2 <= r -> none_below r n -> mul_ok r r = true -> (Z.of_nat n <= 2 ^ 30)%Z ->
  drive_any A seq nop bad aek ack cpy fuel r n s eo x y W = comp ps n s eo x y W.
Proof.
  induction ps as [|p ps IH]; intros fuel r n s eo x y W Hp Hn Hf Ho D3 D5 Hor Hr Hnb Hm Hz; [inversion Hp; lia|].
  destruct fuel as [|fuel]; [lia|]. cbn [drive_any]. cbv zeta.
  destruct (find_factor_spec n r n) as (k & Ek & Hk); auto; try lia. rewrite Ek.
  assert (D2 : ~ Nat.divide 2 n) by (intros D; pose proof (odd_divide 2 n Ho D) as (c & Hc); lia).
  destruct p as [r'|k'].
  { exfalso. inversion Hp as [|? ? ? ? HF|]; subst. destruct HF as [(_ & Q) | [(_ & Q & _) | [(_ & Q & _) | [(_ & Q & _) | (_ & Q & _)]]]]; auto.
    - apply D2. eapply Nat.divide_trans; [|exact Q]. exists 4. lia.
    - apply D2. eapply Nat.divide_trans; [|exact Q]. exists 2. lia. }
  inversion Hp as [| |? ? ? _ _ _ _ Hk' Hp']; subst.
  assert (k' = k) by (eapply smallest_unique; eauto). subst k'. pose proof Hk as (K1 & K2 & K3).
  pose proof (plan_nil_iff n k ps Hp' ltac:(lia) K2) as Hnil. cbn [compose].
  destruct (Nat.eqb_spec k n) as [E|E].
  - destruct ps; [reflexivity|]. destruct Hnil as [_ Hnil]. discriminate (Hnil (eq_sym E)).
  - destruct ps as [|p2 ps]; [exfalso; apply E; symmetry; apply Hnil; reflexivity|]. f_equal.
    destruct (div_lt_of n k) as (Q1 & Q2); auto; try lia.
    assert (Enk : n = n / k * k) by (destruct K2 as (c & ->); rewrite Nat.div_mul by lia; reflexivity).
    assert (Hd : Nat.divide (n / k) n) by (exists k; lia).
    apply IH; auto.
    + assert (n / k <> 1) by (intros E1; rewrite E1 in Enk; lia). lia.
    + lia.
    + exact (odd_divide (n / k) n Ho Hd).
    + intros D. apply D3. eapply Nat.divide_trans; eauto.
    + intros D. apply D5. eapply Nat.divide_trans; eauto.
    + exact (odd_divide k n Ho K2).
    + eapply smallest_none_below; [exact Hk|exact Hd].
    + unfold mul_ok, INT_MAX. apply Z.leb_le. change (2 ^ 30)%Z with 1073741824%Z in Hz.
      assert (k <= n / k).
      { apply K3; [assert (n / k <> 1) by (intros E1; rewrite E1 in Enk; lia); lia|exact Hd]. }
      nia.
    + lia.
Qed.

Lemma mod0 r n : 0 < r -> Nat.divide r n -> (n mod r =? 0) = true.
Proof. intros Hr H. apply Nat.eqb_eq. apply mod_divide; auto. Qed.
Lemma mod1 r n : 0 < r -> ~ Nat.divide r n -> (n mod r =? 0) = false.
Proof. intros Hr H. apply Nat.eqb_neq. intros E. apply H. apply mod_divide; auto. Qed.
Lemma ndiv_mul a b n : ~ Nat.divide a n -> Nat.divide a b -> ~ Nat.divide b n.
Proof. intros H H1 H2. apply H. eapply Nat.divide_trans; eauto. Qed.

Lemma not2_4 n : ~ Nat.divide 2 n -> ~ Nat.divide 4 n.
Proof. intros H. apply (ndiv_mul 2); auto. exists 2. lia. Qed.
Lemma not4_8 n : ~ Nat.divide 4 n -> ~ Nat.divide 8 n.
Proof. intros H. apply (ndiv_mul 4); auto. exists 2. lia. Qed.
Local Ltac nd := lia || auto using not2_4, not4_8.

Theorem drive_plan ps : forall fuel n s eo x y W,
  plan n ps -> 2 <= n -> n < fuel -> 0 < s -> (Z.of_nat n <= 2 ^ 30)%Z ->
  drive A seq nop bad ek ck aek ack cpy fuel n s eo x y W = comp ps n s eo x y W.
Proof.
  induction ps as [|p ps IH]; intros fuel n s eo x y W Hp Hn Hf Hs Hz; [inversion Hp; lia|].
  destruct fuel as [|fuel]; [lia|].
  destruct (plan_radix n p ps Hp) as (P1 & P2 & P3).
  pose proof (plan_nil_iff n (pass_radix p) ps P3 P1 P2) as Hnil.
  destruct (div_lt_of n (pass_radix p)) as (Q1 & Q2); auto; try lia.
  assert (Rec : forall r, pass_radix p = r -> n <> r ->
    drive A seq nop bad ek ck aek ack cpy fuel (n / r) (r * s) (negb eo) y x W = comp ps (n / r) (r * s) (negb eo) y x W).
  { intros r <- Hne. apply IH; auto; try lia; try nia.
    destruct P2 as (c & E). rewrite E, Nat.div_mul in * by lia. assert (c <> 1) by (intros ->; lia). lia. }
  assert (Last : forall r (a b : A), pass_radix p = r ->
    (if n =? r then a else seq b (drive A seq nop bad ek ck aek ack cpy fuel (n / r) (r * s) (negb eo) y x W)) =
    match ps with [] => a | _ => seq b (comp ps (n / r) (r * s) (negb eo) y x W) end).
  { intros r a b Er. rewrite Er in Hnil. destruct (Nat.eqb_spec n r) as [E|E].
    - destruct Hnil as [_ H]. rewrite H by auto. reflexivity.
    - rewrite Rec by auto. destruct ps; [exfalso; apply E; apply Hnil; reflexivity|reflexivity]. }
  cbn [drive]. cbv zeta. destruct (Nat.ltb_spec (n * s) 2); [nia|].
  destruct p as [r|k]; cbn [pass_radix compose] in *.
  - inversion Hp as [|? ? ? _ HF _|]; subst.
    destruct HF as [(-> & H8) | [(-> & H4 & H8) | [(-> & H2 & H4) | [(-> & H5 & H2) | (-> & H3 & H2 & H5)]]]].
    + rewrite (mod0 8) by nd. apply Last. reflexivity.
    + rewrite (mod1 8), (mod0 4) by nd. apply Last. reflexivity.
    + rewrite (mod1 8), (mod1 4), (mod0 2) by nd. apply Last. reflexivity.
    + rewrite (mod1 8), (mod1 4), (mod1 2), (mod0 5) by nd. apply Last. reflexivity.
    + rewrite (mod1 8), (mod1 4), (mod1 2), (mod1 5), (mod0 3) by nd. apply Last. reflexivity.
  - inversion Hp as [| |? ? ? _ D2 D3 D5 Hk Hp']; subst.
    rewrite (mod1 8), (mod1 4), (mod1 2), (mod1 5), (mod1 3) by nd.
    apply (drive_any_plan (Generic k :: ps)); auto; try lia.
    + apply odd_not2. auto.
    + exists 3. lia.
    + intros e He Hlt Hde.
      assert (Hc : e = 2 \/ e = 3 \/ e = 4 \/ e = 5 \/ e = 6) by lia.
      destruct Hc as [-> | [-> | [-> | [-> | ->]]]]; auto; apply D2; (eapply Nat.divide_trans; [|exact Hde]); [exists 2|exists 3]; lia.
Qed.
End Drive.
