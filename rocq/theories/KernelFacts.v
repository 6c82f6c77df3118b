(** * The loop shapes of the power-of-two kernels as stages (any arithmetic) *)

From Coq Require Import List Arith Lia.
From Verif Require Import Scalar Mem MemFacts Omp OmpFacts Lanes Stage CoreStage.
Import ListNotations.

Section KernelFacts.
Context {Op : Ops}.
Notation prog := (prog C).
Notation lane := (lane C).
Notation phase := (phase (V:=C)).

Lemma Disj_lane_ext {K} (D : K -> Prop) (t t' : K -> lane) : (forall k, D k -> t k = t' k) -> Disj D t' -> Disj D t.
Proof. intros E H k k' Hk Hk' Hne l Hl. rewrite E in Hl by auto. rewrite (E k') by auto. apply (H k k'); auto. Qed.
Lemma Cov_lane_ext {K} (D : K -> Prop) (t t' : K -> lane) x N W NW y M F : (forall k, D k -> t k = t' k) ->
  Cov D t' x N W NW y M F -> Cov D t x N W NW y M F.
Proof.
  intros E (H1 & H2 & H3). split; [|split].
  - intros k l Hk. rewrite E by auto. apply H1; auto.
  - intros k l Hk. rewrite E by auto. apply H2; auto.
  - intros i Hi. destruct (H3 i Hi) as (k & j & Hk & Hx). exists k, j. rewrite E by auto. auto.
Qed.

(** loops as [for_ n body] / phase [(n, body)], whose iterations are the butterflies (p,q), p < m, q < s *)
Inductive Shape (m s : nat) (t : nat -> nat -> lane) : nat -> (nat -> prog unit) -> Prop :=
| sh_nest L h : s = L * h -> 0 < L ->
    Shape m s t m (fun p => for_step s L (fun q => vblock L (fun l => t p (q + l))))
| sh_flat L h : s = L * h -> 0 < L ->
    Shape m s t (m * h) (fun i => vblock L (fun l => t (i / h) (i mod h * L + l)))
| sh_col L h : s = 1 -> m = L * h -> 0 < L ->
    Shape m s t h (fun i => vblock L (fun l => t (L * i + l) 0))
| sh_end L h : m = 1 -> s = L * h -> 0 < L ->
    Shape m s t h (fun i => vblock L (fun l => t 0 (L * i + l)))
| sh_one : m = 1 -> s = 1 -> Shape m s t 1 (fun _ => lblock (t 0 0)).

Lemma Shape_Splits m s t n body : Shape m s t n body ->
  (forall k, DD m s k -> lane_ok (t (fst k) (snd k))) -> Disj (DD m s) (fun k => t (fst k) (snd k)) ->
  Splits n body (DD m s) (fun k => t (fst k) (snd k)).
Proof.
  intros H Hok Hd. destruct H as [L h Hs HL|L h Hs HL|L h Hs Hm HL|L h Hm Hs HL|Hm Hs].
  - apply (Splits_nest_v m s (fun k => t (fst k) (snd k)) Hok Hd L h); auto.
  - apply (Splits_flat_v m s (fun k => t (fst k) (snd k)) Hok Hd L h); auto.
  - apply (Splits_col_v m s (fun k => t (fst k) (snd k)) Hok Hd L h); auto.
  - apply (Splits_end_v m s (fun k => t (fst k) (snd k)) Hok Hd L h); auto.
  - subst. apply (Splits_1 1 (fun _ => (0, 0))).
    + intros i Hi. reflexivity.
    + exact Hok.
    + intros; lia.
    + intros i Hi. split; cbn; lia.
    + intros [a b] [Ha Hb]. cbn in *. exists 0. split; [lia|]. f_equal; lia.
Qed.

(** ** decimation in frequency *)
Section Dif.
Variables (r m s N : nat) (NW : nat -> Prop) (x y W : ptr) (tw : nat -> list nat) (f : list C -> list C).
Variables (t : nat -> nat -> lane) (n : nat) (body : nat -> prog unit).
Hypothesis HN : N = r * m * s.
Hypothesis Hr : 0 < r.
Hypothesis Hs : 0 < s.
Hypothesis Htw : forall p e, p < m -> In e (tw p) -> NW e.
Hypothesis Hf : forall p vs, p < m -> length vs = length (tw p) + r -> length (f vs) = r.
Hypothesis HW : disjT W NW y N.
Hypothesis Hxy : disjR x N y N \/ (y = x /\ m = 1).
Hypothesis Ht : forall p q, p < m -> q < s -> t p q = lane_core r (m * s) s x y W (tw p) f (s * p) q.
Hypothesis Hsh : Shape m s t n body.

Let Hsp : Splits n body (DD m s) (fun k => t (fst k) (snd k)).
Proof.
  apply Shape_Splits; auto.
  - intros k Hk. rewrite Ht by apply Hk. apply (dif_lane_ok r m s N NW x y W tw f); auto.
  - eapply Disj_lane_ext; [|apply (dif_disj r m s N NW x y W tw f); auto]. intros k Hk. apply Ht; apply Hk.
Qed.

Lemma difk_C : Computes (for_ n body) x N W NW (inR y N) y N (dif_fun r m s tw f).
Proof.
  eapply Splits_Computes; [exact Hsp| |].
  - eapply Disj_lane_ext; [|apply (dif_disj r m s N NW x y W tw f); auto]. intros k Hk. apply Ht; apply Hk.
  - eapply Cov_lane_ext; [|apply (dif_cov r m s N NW x y W tw f); auto]. intros k Hk. apply Ht; apply Hk.
Qed.
Lemma difk_R : RComputes [(n, body)] x N W NW (inR y N) y N (dif_fun r m s tw f).
Proof.
  eapply Splits_RComputes; [exact Hsp| |].
  - eapply Disj_lane_ext; [|apply (dif_disj r m s N NW x y W tw f); auto]. intros k Hk. apply Ht; apply Hk.
  - eapply Cov_lane_ext; [|apply (dif_cov r m s N NW x y W tw f); auto]. intros k Hk. apply Ht; apply Hk.
Qed.
End Dif.

(** ** decimation in time *)
Section Dit.
Variables (r m s N : nat) (NW : nat -> Prop) (y x W : ptr) (tw : nat -> list nat) (f : list C -> list C).
Variables (t : nat -> nat -> lane) (n : nat) (body : nat -> prog unit).
Hypothesis HN : N = r * m * s.
Hypothesis Hm : 0 < m.
Hypothesis Hs : 0 < s.
Hypothesis Htw : forall p e, p < m -> In e (tw p) -> NW e.
Hypothesis Hf : forall p vs, p < m -> length vs = length (tw p) + r -> length (f vs) = r.
Hypothesis HW : disjT W NW x N.
Hypothesis Hxy : disjR y N x N.
Hypothesis Ht : forall p q, p < m -> q < s -> t p q = lane_dit r (m * s) s y x W (tw p) f (s * p) q.
Hypothesis Hsh : Shape m s t n body.

Let Hsp : Splits n body (DD m s) (fun k => t (fst k) (snd k)).
Proof.
  apply Shape_Splits; auto.
  - intros k Hk. rewrite Ht by apply Hk. apply (dit_lane_ok r m s N NW y x W tw f); auto.
  - eapply Disj_lane_ext; [|apply (dit_disj r m s N NW y x W tw f); auto]. intros k Hk. apply Ht; apply Hk.
Qed.

Lemma ditk_C : Computes (for_ n body) y N W NW (inR x N) x N (dit_fun r m s tw f).
Proof.
  eapply Splits_Computes; [exact Hsp| |].
  - eapply Disj_lane_ext; [|apply (dit_disj r m s N NW y x W tw f); auto]. intros k Hk. apply Ht; apply Hk.
  - eapply Cov_lane_ext; [|apply (dit_cov r m s N NW y x W tw f); auto]. intros k Hk. apply Ht; apply Hk.
Qed.
Lemma ditk_R : RComputes [(n, body)] y N W NW (inR x N) x N (dit_fun r m s tw f).
Proof.
  eapply Splits_RComputes; [exact Hsp| |].
  - eapply Disj_lane_ext; [|apply (dit_disj r m s N NW y x W tw f); auto]. intros k Hk. apply Ht; apply Hk.
  - eapply Cov_lane_ext; [|apply (dit_cov r m s N NW y x W tw f); auto]. intros k Hk. apply Ht; apply Hk.
Qed.
End Dit.

End KernelFacts.
