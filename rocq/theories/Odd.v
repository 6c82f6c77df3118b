(** * Two runs side by side: which numbers of a computation change sign with the input data

    [pair_ops A]: the arithmetic of pairs, one component for each of two runs.  [tags]: an arithmetic whose numbers say how the
    two components of a pair are related: TC equal and zero, T0 equal (tables and constants), T1 opposite (data), TX unknown.
    [tag_sim]: the tags are right about IEEE-754 arithmetic of every build.  "Opposite" is up to the sign of zeros; a number that is
    not finite is only known to be not finite in the other run either. *)

From Coq Require Import Reals ZArith List Bool Arith Lia Lra.
From Flocq Require Import Core.Core IEEE754.BinarySingleNaN.
From Verif Require Import Scalar RealOps Simd Mysqrt Ieee PropMysqrt Norm Round PropAccuracy Param Ieee64 Grade.
Import ListNotations.

Definition pair_ops (A : Ops) : Ops := {|
  Sc := @Sc A * @Sc A;
  sadd := fun x y => (@sadd A (fst x) (fst y), @sadd A (snd x) (snd y));
  ssub := fun x y => (@ssub A (fst x) (fst y), @ssub A (snd x) (snd y));
  smul := fun x y => (@smul A (fst x) (fst y), @smul A (snd x) (snd y));
  sdiv := fun x y => (@sdiv A (fst x) (fst y), @sdiv A (snd x) (snd y));
  sneg := fun x => (@sneg A (fst x), @sneg A (snd x));
  ssqrt := fun x => (@ssqrt A (fst x), @ssqrt A (snd x));
  smysqrt := fun z => (@smysqrt A z, @smysqrt A z);
  scos := fun x => (@scos A (fst x), @scos A (snd x)); ssin := fun x => (@ssin A (fst x), @ssin A (snd x));
  sofZ := fun z => (@sofZ A z, @sofZ A z);
  spi := (@spi A, @spi A); ssqrt1_2 := (@ssqrt1_2 A, @ssqrt1_2 A); sH1X := (@sH1X A, @sH1X A); sH1Y := (@sH1Y A, @sH1Y A);
  smulre := fun a b x y => (@smulre A (fst a) (fst b) (fst x) (fst y), @smulre A (snd a) (snd b) (snd x) (snd y));
  smulim := fun a b x y => (@smulim A (fst a) (fst b) (fst x) (fst y), @smulim A (snd a) (snd b) (snd x) (snd y));
  sv8re := fun x y => (@sv8re A (fst x) (fst y), @sv8re A (snd x) (snd y));
  sv8im := fun x y => (@sv8im A (fst x) (fst y), @sv8im A (snd x) (snd y));
  sw8re := fun x y => (@sw8re A (fst x) (fst y), @sw8re A (snd x) (snd y));
  sw8im := fun x y => (@sw8im A (fst x) (fst y), @sw8im A (snd x) (snd y)) |}.
Definition R1 {A : Ops} (p : @Sc (pair_ops A)) (x : @Sc A) : Prop := fst p = x.
Definition R2 {A : Ops} (p : @Sc (pair_ops A)) (x : @Sc A) : Prop := snd p = x.
Lemma fst_sim A : sim (pair_ops A) A R1 R1.
Proof. unfold R1. constructor; intros; subst; reflexivity. Qed.
Lemma snd_sim A : sim (pair_ops A) A R2 R2.
Proof. unfold R2. constructor; intros; subst; reflexivity. Qed.

Inductive tag := TC | T0 | T1 | TX.
Definition tadd (s t : tag) : tag :=
  match s, t with
  | TX, _ | _, TX => TX
  | TC, TC => TC
  | TC, T0 | T0, TC | T0, T0 => T0
  | TC, T1 | T1, TC | T1, T1 => T1
  | T0, T1 | T1, T0 => TX
  end.
Definition tmul (s t : tag) : tag :=
  match s, t with
  | TX, _ | _, TX | T1, T1 => TX
  | T1, _ | _, T1 => T1
  | _, _ => T0
  end.
Definition tfun (t : tag) : tag := match t with TC | T0 => T0 | _ => TX end.
Definition tags : Ops := {|
  Sc := tag; sadd := tadd; ssub := tadd; smul := tmul; sdiv := fun x _ => x; sneg := fun x => x; ssqrt := fun x => x;
  smysqrt := fun _ => T0; scos := tfun; ssin := tfun; sofZ := fun z => if (z =? 0)%Z then TC else T0;
  spi := T0; ssqrt1_2 := T0; sH1X := T0; sH1Y := T0;
  smulre := fun a b x y => tadd (tmul a x) (tmul b y); smulim := fun a b x y => tadd (tmul a y) (tmul b x);
  sv8re := fun x y => tmul T0 (tadd x y); sv8im := fun x y => tmul T0 (tadd x y); sw8re := fun x y => tmul T0 (tadd x y); sw8im := fun x y => tmul T0 (tadd x y) |}.

Local Open Scope R_scope.
(** the second number is the opposite of the first; neither of the two is finite without the other *)
Definition opp (x y : double) : Prop := is_finite x = is_finite y /\ (is_finite x = true -> B2R y = - B2R x).
Definition TR (p : double * double) (t : tag) : Prop :=
  match t with
  | TC => fst p = snd p /\ is_finite (fst p) = true /\ B2R (fst p) = 0
  | T0 => fst p = snd p
  | T1 => opp (fst p) (snd p)
  | TX => True
  end.
Definition TK (p : double * double) (t : tag) : Prop := fst p = snd p /\ divisor (fst p).

Lemma rn_opp v : rn (- v) = - rn v.
Proof. apply round_NE_opp. Qed.
Lemma fin_lt (z : double) : Rabs (B2R z) < bpow radix2 1024.
Proof. apply (abs_B2R_lt_emax 53 1024). Qed.
(** an operation whose exact result changes sign *)
Lemma op_opp z z' v : op_ok z v -> op_ok z' (- v) -> opp z z'.
Proof.
  intros Hz Hz'. unfold op_ok in *. rewrite rn_opp in Hz'. pose proof (fin_lt z) as B. pose proof (fin_lt z') as B'.
  destruct Hz as [[F E]|[F H]], Hz' as [[F' E']|[F' H']]; unfold opp; rewrite F, F'.
  - split; [reflexivity|]. intros _. rewrite E, E'. reflexivity.
  - exfalso. rewrite Rabs_Ropp, <- E in H'. lra.
  - exfalso. rewrite E', Rabs_Ropp in B'. lra.
  - split; [reflexivity|discriminate].
Qed.
Lemma opp_neg x y : opp x y -> opp (neg x) (neg y).
Proof. intros [H1 H2]. split; [rewrite !neg_fin; exact H1|]. rewrite neg_fin, !B2R_Bopp. intros F. rewrite (H2 F). reflexivity. Qed.
Lemma opp_zero p : TR p TC -> opp (fst p) (snd p).
Proof. intros (E & F & V). rewrite <- E. split; [reflexivity|]. intros _. rewrite V. ring. Qed.
(** if one of the operands is not finite in one run, the result is finite in neither *)
Lemma opp_nf z z' : is_finite z = false -> is_finite z' = false -> opp z z'.
Proof. intros F F'. split; [rewrite F, F'; reflexivity|]. rewrite F. discriminate. Qed.
Lemma nf_of (z : double) (P : Prop) : (is_finite z = true -> P) -> ~ P -> is_finite z = false.
Proof. intros H N. destruct (is_finite z); [exfalso; apply N, H; reflexivity|reflexivity]. Qed.

Lemma o_add x x' y y' : opp x x' -> opp y y' -> opp (add x y) (add x' y').
Proof.
  intros [X1 X2] [Y1 Y2]. destruct (is_finite x) eqn:Fx; [destruct (is_finite y) eqn:Fy|].
  - eapply op_opp; [apply add_ok; auto|]. rewrite (ltac:(rewrite X2, Y2 by reflexivity; ring) : - (B2R x + B2R y) = B2R x' + B2R y'). apply add_ok; auto.
  - apply opp_nf; (eapply nf_of; [apply add_fin|]); intros [_ C]; congruence.
  - apply opp_nf; (eapply nf_of; [apply add_fin|]); intros [C _]; congruence.
Qed.
Lemma o_sub x x' y y' : opp x x' -> opp y y' -> opp (sub x y) (sub x' y').
Proof.
  intros [X1 X2] [Y1 Y2]. destruct (is_finite x) eqn:Fx; [destruct (is_finite y) eqn:Fy|].
  - eapply op_opp; [apply sub_ok; auto|]. rewrite (ltac:(rewrite X2, Y2 by reflexivity; ring) : - (B2R x - B2R y) = B2R x' - B2R y'). apply sub_ok; auto.
  - apply opp_nf; (eapply nf_of; [apply sub_fin|]); intros [_ C]; congruence.
  - apply opp_nf; (eapply nf_of; [apply sub_fin|]); intros [C _]; congruence.
Qed.
Lemma o_mul x y y' : opp y y' -> opp (mul x y) (mul x y').
Proof.
  intros [Y1 Y2]. destruct (is_finite x) eqn:Fx; [destruct (is_finite y) eqn:Fy|].
  - eapply op_opp; [apply mul_ok; auto|]. rewrite (ltac:(rewrite Y2 by reflexivity; ring) : - (B2R x * B2R y) = B2R x * B2R y'). apply mul_ok; auto.
  - apply opp_nf; (eapply nf_of; [apply mul_fin|]); intros [_ C]; congruence.
  - apply opp_nf; (eapply nf_of; [apply mul_fin|]); intros [C _]; congruence.
Qed.
Lemma o_mul' x x' y : opp x x' -> opp (mul x y) (mul x' y).
Proof.
  intros [X1 X2]. destruct (is_finite x) eqn:Fx; [destruct (is_finite y) eqn:Fy|].
  - eapply op_opp; [apply mul_ok; auto|]. rewrite (ltac:(rewrite X2 by reflexivity; ring) : - (B2R x * B2R y) = B2R x' * B2R y). apply mul_ok; auto.
  - apply opp_nf; (eapply nf_of; [apply mul_fin|]); intros [_ C]; congruence.
  - apply opp_nf; (eapply nf_of; [apply mul_fin|]); intros [C _]; congruence.
Qed.
Lemma o_fma x x' y y' z z' : (x = x' /\ opp y y') \/ (opp x x' /\ y = y') -> opp z z' -> opp (fma x y z) (fma x' y' z').
Proof.
  intros H [Z1 Z2].
  assert (HF : is_finite x = is_finite x' /\ is_finite y = is_finite y').
  { destruct H as [[<- [Y1 _]]|[[X1 _] <-]]; auto. }
  destruct HF as [F1 F2].
  destruct (is_finite x) eqn:Fx; [destruct (is_finite y) eqn:Fy; [destruct (is_finite z) eqn:Fz|]|].
  - eapply op_opp; [apply fma_ok; auto|].
    assert (E : - (B2R x * B2R y + B2R z) = B2R x' * B2R y' + B2R z').
    { rewrite (Z2 eq_refl). destruct H as [[<- [_ Y2]]|[[_ X2] <-]]; [rewrite Y2 by exact Fy|rewrite X2 by exact Fx]; ring. }
    rewrite E. apply fma_ok; auto.
  - apply opp_nf; (eapply nf_of; [apply fma_fin|]); intros (_ & _ & C); congruence.
  - apply opp_nf; (eapply nf_of; [apply fma_fin|]); intros (_ & C & _); congruence.
  - apply opp_nf; (eapply nf_of; [apply fma_fin|]); intros (C & _); congruence.
Qed.
Lemma div_fin (x y : double) : divisor y -> is_finite (div x y) = true -> is_finite x = true.
Proof.
  intros [Fy Vy]. destruct x, y; cbn; try reflexivity; try discriminate; intros; cbn in *; lra.
Qed.
Lemma o_div x x' y : divisor y -> opp x x' -> opp (div x y) (div x' y).
Proof.
  intros Hy [X1 X2]. destruct (is_finite x) eqn:Fx.
  - destruct Hy as [Fy Vy]. eapply op_opp; [apply div_ok; auto; lra|]. rewrite (ltac:(rewrite X2 by reflexivity; unfold Rdiv; ring) : - (B2R x / B2R y) = B2R x' / B2R y). apply div_ok; auto; lra.
  - apply opp_nf; (eapply nf_of; [apply div_fin; exact Hy|]); congruence.
Qed.
Lemma rn_0 : rn 0 = 0.
Proof. apply round_0. apply valid_rnd_N. Qed.
Lemma op_zero z : op_ok z 0 -> is_finite z = true /\ B2R z = 0.
Proof. unfold op_ok. rewrite rn_0, Rabs_R0. intros [H|[_ H]]; [exact H|]. pose proof (bpow_gt_0 radix2 1024). lra. Qed.

Notation pr f := (fun p q : double * double => (f (fst p) (fst q), f (snd p) (snd q))) (only parsing).
Lemma t_opp p t : TR p t -> t = TC \/ t = T1 -> opp (fst p) (snd p).
Proof. intros H [-> | ->]; [apply opp_zero, H|exact H]. Qed.
Lemma t_eq p t : TR p t -> t = TC \/ t = T0 -> fst p = snd p.
Proof. intros H [-> | ->]; [apply H|exact H]. Qed.

Lemma t_add p s q t : TR p s -> TR q t -> TR (add (fst p) (fst q), add (snd p) (snd q)) (tadd s t).
Proof.
  intros Hp Hq. destruct s, t; cbn [tadd]; try exact I; unfold TR; cbn [fst snd];
    try (apply o_add; eapply t_opp; eauto; fail); try (erewrite (t_eq p), (t_eq q) by eauto; reflexivity).
  destruct Hp as (E & F & V), Hq as (E' & F' & V'). rewrite <- E, <- E'. split; [reflexivity|]. apply op_zero.
  rewrite (ltac:(rewrite V, V'; ring) : 0 = B2R (fst p) + B2R (fst q)). apply add_ok; auto.
Qed.
Lemma t_sub p s q t : TR p s -> TR q t -> TR (sub (fst p) (fst q), sub (snd p) (snd q)) (tadd s t).
Proof.
  intros Hp Hq. destruct s, t; cbn [tadd]; try exact I; unfold TR; cbn [fst snd];
    try (apply o_sub; eapply t_opp; eauto; fail); try (erewrite (t_eq p), (t_eq q) by eauto; reflexivity).
  destruct Hp as (E & F & V), Hq as (E' & F' & V'). rewrite <- E, <- E'. split; [reflexivity|]. apply op_zero.
  rewrite (ltac:(rewrite V, V'; ring) : 0 = B2R (fst p) - B2R (fst q)). apply sub_ok; auto.
Qed.
Lemma t_mul p s q t : TR p s -> TR q t -> TR (mul (fst p) (fst q), mul (snd p) (snd q)) (tmul s t).
Proof.
  intros Hp Hq. destruct s, t; cbn [tmul]; try exact I; unfold TR; cbn [fst snd];
    try (erewrite (t_eq p), (t_eq q) by eauto; reflexivity);
    first [erewrite (t_eq p) by eauto; apply o_mul; eapply t_opp; eauto|erewrite (t_eq q) by eauto; apply o_mul'; eapply t_opp; eauto].
Qed.
Lemma t_neg p t : TR p t -> TR (neg (fst p), neg (snd p)) t.
Proof.
  destruct t; unfold TR; cbn [fst snd]; try exact (fun H => H).
  - intros (E & F & V). rewrite <- E. split; [reflexivity|]. rewrite neg_fin, B2R_Bopp, V. split; [exact F|ring].
  - intros ->. reflexivity.
  - apply opp_neg.
Qed.
Lemma t_fma p s q t r w : TR p s -> TR q t -> TR r w -> TR (fma (fst p) (fst q) (fst r), fma (snd p) (snd q) (snd r)) (tadd (tmul s t) w).
Proof.
  intros Hp Hq Hr.
  assert (EE : forall a b c, (a = TC \/ a = T0) -> (b = TC \/ b = T0) -> (c = TC \/ c = T0) -> TR p a -> TR q b -> TR r c -> fma (fst p) (fst q) (fst r) = fma (snd p) (snd q) (snd r)).
  { intros a b c Ha Hb Hc Ka Kb Kc. rewrite (t_eq p a Ka Ha), (t_eq q b Kb Hb), (t_eq r c Kc Hc). reflexivity. }
  assert (HT : s <> T1 -> t <> T1 -> s <> TX -> t <> TX -> (s = TC \/ s = T0) /\ (t = TC \/ t = T0)) by (destruct s, t; intuition congruence).
  destruct (tmul s t) eqn:Em.
  - destruct s, t; discriminate.
  - assert (Hst : (s = TC \/ s = T0) /\ (t = TC \/ t = T0)) by (destruct s, t; try discriminate; auto). destruct Hst as [Hs Ht].
    destruct w; cbn [tadd]; try exact I; [apply (EE s t TC)|apply (EE s t T0)]; auto.
  - assert (Hst : ((s = TC \/ s = T0) /\ t = T1) \/ (s = T1 /\ (t = TC \/ t = T0))) by (destruct s, t; try discriminate; auto).
    destruct w; cbn [tadd]; try exact I; unfold TR; cbn [fst snd]; (apply o_fma; [|eapply t_opp; eauto]);
      (destruct Hst as [[Hs ->]|[-> Ht]]; [left; split; [eapply t_eq; eauto|exact Hq]|right; split; [exact Hp|eapply t_eq; eauto]]).
  - destruct w; exact I.
Qed.
Lemma t_div p s q t : TR p s -> TK q t -> TR (div (fst p) (fst q), div (snd p) (snd q)) s.
Proof.
  intros Hp [E D]. rewrite <- E. destruct s; unfold TR in *; cbn [fst snd]; try exact I.
  - destruct Hp as (E' & F & V). rewrite <- E'. split; [reflexivity|]. apply op_zero. destruct D as [D1 D2].
    rewrite (ltac:(rewrite V; unfold Rdiv; ring) : 0 = B2R (fst p) / B2R (fst q)). apply div_ok; [exact F|lra].
  - rewrite Hp. reflexivity.
  - apply o_div; auto.
Qed.
Lemma t_s12 p t : TR p t -> TR (mul d_sqrt1_2 (fst p), mul d_sqrt1_2 (snd p)) (tmul T0 t).
Proof. intros H. exact (t_mul (d_sqrt1_2, d_sqrt1_2) T0 p t eq_refl H). Qed.
Lemma tadd_comm s t : tadd s t = tadd t s.
Proof. destruct s, t; reflexivity. Qed.

Section Sim.
Variables (dc ds : double -> double) (bd : build).
Theorem tag_sim : sim (pair_ops (ieee dc ds bd)) tags TR TK.
Proof.
  constructor.
  - intros x x' y y'. exact (t_add x x' y y').
  - intros x x' y y'. exact (t_sub x x' y y').
  - intros x x' y y'. exact (t_mul x x' y y').
  - intros x x' y y'. exact (t_div x x' y y').
  - intros x x'. exact (t_neg x x').
  - intros z Hz. reflexivity.
  - intros z Hz. split; [reflexivity|exact (d_sqrt z Hz)].
  - intros n Hn. unfold TK. cbn [smysqrt pair_ops fst snd]. generalize (d_mysqrt n Hn : divisor (@smysqrt (ieee dc ds bd) (2 ^ Z.of_nat n)%Z)). generalize (@smysqrt (ieee dc ds bd) (2 ^ Z.of_nat n)%Z). intros d Hd. split; [reflexivity|exact Hd].
  - intros x x' H. destruct x'; cbn [scos tags tfun]; try exact I; exact (f_equal dc (t_eq x _ H ltac:(auto))).
  - intros x x' H. destruct x'; cbn [ssin tags tfun]; try exact I; exact (f_equal ds (t_eq x _ H ltac:(auto))).
  - intros z. cbn [sofZ tags]. destruct (Z.eqb_spec z 0) as [->|_]; [|reflexivity]. split; [reflexivity|].
    destruct (dbl_exact 0 0 ltac:(reflexivity) ltac:(lia) ltac:(lia)) as [F V]. split; [exact F|]. etransitivity; [exact V|]. ring.
  - intros z Hz. split; [reflexivity|exact (d_ofZ z Hz)].
  - reflexivity.
  - reflexivity.
  - reflexivity.
  - reflexivity.
  - intros a a' b b' x x' y y' Ha Hb Hx Hy. destruct bd.
    + exact (t_sub _ _ _ _ (t_mul _ _ _ _ Ha Hx) (t_mul _ _ _ _ Hb Hy)).
    + exact (t_add _ _ _ _ (t_mul _ _ _ _ Ha Hx) (t_mul _ _ _ _ Hb (t_neg _ _ Hy))).
    + exact (t_sub _ _ _ _ (t_mul _ _ _ _ Ha Hx) (t_mul _ _ _ _ Hb Hy)).
    + exact (t_sub _ _ _ _ (t_mul _ _ _ _ Ha Hx) (t_mul _ _ _ _ Hb Hy)).
    + exact (t_fma _ _ _ _ _ _ Ha Hx (t_neg _ _ (t_mul _ _ _ _ Hb Hy))).
  - intros a a' b b' x x' y y' Ha Hb Hx Hy. destruct bd.
    1,2,3,4: exact (t_add _ _ _ _ (t_mul _ _ _ _ Ha Hy) (t_mul _ _ _ _ Hb Hx)).
    exact (t_fma _ _ _ _ _ _ Ha Hy (t_mul _ _ _ _ Hb Hx)).
  - intros x x' y y' Hx Hy. destruct bd.
    + exact (t_s12 _ _ (t_sub _ _ _ _ Hx Hy)).
    + exact (t_s12 _ _ (t_add _ _ _ _ Hx (t_neg _ _ Hy))).
    + exact (t_s12 _ _ (t_sub _ _ _ _ Hx Hy)).
    + exact (t_s12 _ _ (t_sub _ _ _ _ Hx Hy)).
    + exact (t_s12 _ _ (t_sub _ _ _ _ Hx Hy)).
  - intros x x' y y' Hx Hy. cbn [sv8im tags]. destruct bd.
    1: exact (t_s12 _ _ (t_add _ _ _ _ Hx Hy)).
    all: rewrite tadd_comm; exact (t_s12 _ _ (t_add _ _ _ _ Hy Hx)).
  - intros x x' y y' Hx Hy. destruct bd; exact (t_s12 _ _ (t_add _ _ _ _ Hx Hy)).
  - intros x x' y y' Hx Hy. cbn [sw8im tags]. rewrite tadd_comm. destruct bd.
    1: exact (t_s12 _ _ (t_sub _ _ _ _ Hy Hx)).
    all: exact (t_s12 _ _ (t_add _ _ _ _ Hy (t_neg _ _ Hx))).
Qed.
End Sim.
