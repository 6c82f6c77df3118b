(** * Which blocks of memory a call stores to

    [wr_in S p]: whatever values its loads return, the program p stores only into blocks of S. *)

From Coq Require Import List Arith ZArith Bool Lia.
From Verif Require Import Scalar Mem Omp OmpFacts Lanes Object Engine Twid ModelMixed ModelMixedClass ModelDif4 ModelDif8 ModelDif16 ModelDit4 ModelDit8 ModelDit16 ModelPow ModelSix ModelApi ModelReal ModelBluestein Concurrent.
Import ListNotations.

Section Writes.
Context {V : Type} (S : nat -> Prop).
Notation mem := (mem V).
Notation act := (act V).
Fixpoint wr_in {A} (p : prog V A) : Prop :=
  match p with
  | Ret _ | UB => True
  | Load _ k => forall v, wr_in (k v)
  | Store l _ k => S (fst l) /\ wr_in k
  | Alloc b _ k => S b /\ wr_in k
  end.
Lemma wr_bind {A B} (p : prog V A) (f : A -> prog V B) : wr_in p -> (forall a, wr_in (f a)) -> wr_in (bind p f).
Proof. intros H Hf. induction p; cbn in *; auto; destruct H; auto. Qed.
Lemma wr_for n body : (forall i, wr_in (body i)) -> wr_in (for_ (V:=V) n body).
Proof. intros H. induction n; cbn [for_]; [exact I|]. apply wr_bind; auto. Qed.
Lemma wr_loads rs : wr_in (loads (V:=V) rs).
Proof. induction rs; cbn; auto. intros v. apply wr_bind; auto. intros; exact I. Qed.
Lemma wr_stores ws vs : Forall (fun l => S (fst l)) ws -> wr_in (stores (V:=V) ws vs).
Proof. intros H. revert vs. induction H; intros [|v vs]; cbn; auto. Qed.
Lemma wr_block rs ws f : Forall (fun l => S (fst l)) ws -> wr_in (block (V:=V) rs ws f).
Proof. intros H. apply wr_bind; [apply wr_loads|]. intros vs. apply wr_stores; auto. Qed.
Lemma wr_loadss L rs : wr_in (loadss (V:=V) L rs).
Proof. induction L; cbn; auto. apply wr_bind; auto. intros vss. apply wr_bind; [apply wr_loads|]. intros; exact I. Qed.
Lemma wr_storess ws l0 vss : (forall l, Forall (fun l => S (fst l)) (ws l)) -> wr_in (storess (V:=V) ws l0 vss).
Proof. intros H. revert l0. induction vss; intros l0; cbn; auto. apply wr_bind; auto. apply wr_stores; auto. Qed.
Lemma wr_blockL L rs ws f : (forall l, Forall (fun l => S (fst l)) (ws l)) -> wr_in (blockL (V:=V) L rs ws f).
Proof. intros H. apply wr_bind; [apply wr_loadss|]. intros vs. apply wr_storess; auto. Qed.
Lemma wr_chunk body is : (forall i, wr_in (body i)) -> wr_in (chunk_prog (V:=V) body is).
Proof. intros H. induction is; cbn; auto. apply wr_bind; auto. Qed.

Definition wr_phase (ph : phase (V:=V)) : Prop := forall i, wr_in (snd ph i).
Definition wr_act (a : act) : Prop := match a with New b _ => S b | Par r => Forall wr_phase r end.

Lemma wr_psteps n s s' : psteps (V:=V) n s s' -> (forall i, wr_in (fst s i)) -> forall i, wr_in (fst s' i).
Proof.
  induction 1 as [s|s s1 s2 _ IH Hst]; intros H; auto. specialize (IH H). destruct Hst as [T m i p' m' Hi Ha]. cbn [fst] in *.
  intros j. unfold setth. destruct (Nat.eqb_spec j i) as [->|]; auto. specialize (IH i). destruct Ha; cbn in IH; auto. destruct IH; auto.
Qed.
Lemma wr_region r m k T m1 : region_reach r m k T m1 -> Forall wr_phase r -> forall i, wr_in (T i).
Proof.
  induction 1 as [ph rest m chunks T' m' Hsc Hp|ph rest m chunks T' m' n T'' m'' Hsc Hp Hf Hr IH]; intros H; inversion H; subst; auto.
  refine (wr_psteps _ _ _ Hp _). intros i. apply wr_chunk. auto.
Qed.
Lemma wr_call c m k T m1 : call_reach c m k T m1 -> Forall wr_act c -> forall i, wr_in (T i).
Proof. induction 1; intros HF; inversion HF; subst; auto. eapply wr_region; eauto. Qed.
Lemma wr_writes c m : Forall wr_act c -> writes_only c m (fun l => S (fst l)).
Proof. intros H k T m1 Hr i l _ E. pose proof (wr_call _ _ _ _ _ Hr H i) as G. destruct (T i); try discriminate. injection E as ->. apply G. Qed.
End Writes.

Section Calls.
Context {Op : Ops}.
Variable S : nat -> Prop.
Notation wr_in := (wr_in (V := C) S).
Notation wr_phase := (wr_phase (V := C) S).
Notation wr_act := (wr_act (V := C) S).

Lemma wr_single p : wr_in p -> wr_phase (single p).
Proof. intros H i. exact H. Qed.
Lemma wr_step n st body : (forall i, wr_in (body i)) -> wr_in (for_step n st body).
Proof. intros H. apply wr_for. auto. Qed.
Lemma wr_par n st body : (forall i, wr_in (body i)) -> wr_phase (par_step n st body).
Proof. intros H i. apply H. Qed.
Lemma wr_lblock t : Forall (fun l => S (fst l)) (wr t) -> wr_in (lblock t).
Proof. apply wr_block. Qed.
Lemma wr_vblock L t : (forall l, Forall (fun l => S (fst l)) (wr (t l))) -> wr_in (vblock L t).
Proof. apply wr_blockL. Qed.
Lemma wr_map {A} (f : A -> loc) l : (forall a, S (fst (f a))) -> Forall (fun l => S (fst l)) (map f l).
Proof. intros H. apply Forall_map. apply Forall_forall. auto. Qed.

Ltac head t := match t with ?f _ => head f | _ => t end.
Ltac wr1 :=
  match goal with
  | |- forall _, _ => intro
  | |- True => exact I
  | |- context [if ?c then _ else _] => destruct c
  | |- WritesIn.wr_in _ (bind _ _) => apply wr_bind
  | |- WritesIn.wr_in _ (for_ _ _) => apply wr_for
  | |- WritesIn.wr_in _ (for_step _ _ _) => apply wr_step
  | |- WritesIn.wr_in _ (vblock _ _) => apply wr_vblock
  | |- WritesIn.wr_in _ (lblock _) => apply wr_lblock
  | |- WritesIn.wr_in _ (block _ _ _) => apply wr_block
  | |- WritesIn.wr_in _ (store _ _) => split; [|exact I]
  | |- WritesIn.wr_in _ (load _) => intro; exact I
  | |- WritesIn.wr_in _ (Ret _) => exact I
  | |- WritesIn.wr_in _ skip => exact I
  | |- WritesIn.wr_in _ UB => exact I
  | |- WritesIn.wr_in _ (let _ := _ in _) => cbv zeta
  | |- WritesIn.wr_in _ ?p => let h := head p in unfold h
  | |- WritesIn.wr_phase _ (par_step _ _ _) => apply wr_par
  | |- WritesIn.wr_phase _ (single _) => apply wr_single
  | |- WritesIn.wr_phase _ (_, _) => intro; cbn [snd]
  | |- WritesIn.wr_phase _ (let _ := _ in _) => cbv zeta
  | |- WritesIn.wr_phase _ ?p => let h := head p in unfold h
  | |- WritesIn.wr_act _ (Par _) => cbn [WritesIn.wr_act]
  | |- WritesIn.wr_act _ (New _ _) => cbn [WritesIn.wr_act]
  | |- WritesIn.wr_act _ ?p => let h := head p in unfold h
  | |- Forall _ (_ :: _) => constructor
  | |- Forall _ [] => constructor
  | |- Forall _ (_ ++ _) => apply Forall_app; split
  | |- Forall _ (map _ _) => apply wr_map
  | |- Forall _ (wr (Lane _ _ _)) => cbn [wr]
  | |- Forall _ (wr (let _ := _ in _)) => cbv zeta
  | |- Forall _ (wr ?t) => let h := head t in unfold h
  | |- Forall _ (let _ := _ in _) => cbv zeta
  | |- Forall _ ?p => let h := head p in unfold h
  | |- S _ => cbn [fst padd]; assumption
  end.
Ltac wr_go := repeat wr1.


(** ** the power-of-two engines *)
Lemma wr_core a inv W n s x y : S (fst x) -> S (fst y) -> wr_in (core a inv W n s x y).
Proof. intros Hx Hy. destruct a; cbn [core]; wr_go. Qed.
Lemma wr_fin a inv mode n s eo x y : S (fst x) -> S (fst y) -> wr_in (fin a inv mode n s eo x y).
Proof. intros Hx Hy. destruct a; cbn [fin]; wr_go. Qed.
Lemma wr_coreo a inv W n s x y : S (fst x) -> S (fst y) -> Forall wr_phase (coreo a inv W n s x y).
Proof. intros Hx Hy. destruct a; cbn [coreo]; wr_go. Qed.
Lemma wr_fino a inv mode n s eo x y : S (fst x) -> S (fst y) -> Forall wr_phase (fino a inv mode n s eo x y).
Proof. intros Hx Hy. destruct a; cbn [fino]; wr_go. Qed.
Lemma wr_fft_s a inv mode n s eo x y W : S (fst x) -> S (fst y) -> wr_in (fft_s a inv mode n s eo x y W).
Proof.
  intros Hx Hy. unfold fft_s. generalize n at 1 3 as fuel. intros fuel. destruct (is_dit a); revert n s eo x y Hx Hy; induction fuel as [|fuel IH]; intros; cbn [dit_rec dif_rec];
    try exact I; destruct (n <=? radix a); try (apply wr_fin; auto); apply wr_bind; intros; auto using wr_core.
Qed.
Lemma wr_fft_o a inv mode n s eo x y W : S (fst x) -> S (fst y) -> Forall wr_phase (fft_o a inv mode n s eo x y W).
Proof.
  intros Hx Hy. unfold fft_o. generalize n at 1 3 as fuel. intros fuel. destruct (is_dit a); revert n s eo x y Hx Hy; induction fuel as [|fuel IH]; intros; cbn [dit_rec dif_rec];
    try (repeat constructor; intro; exact I); destruct (n <=? radix a); try (apply wr_fino; auto); apply Forall_app; auto using wr_coreo.
Qed.
Lemma wr_pow_run a b n k x y : S (fst x) -> S (fst y) -> Forall wr_act (pow_run a b n k x y).
Proof.
  intros Hx Hy. unfold pow_run, pow_serial, pow_parallel. cbv zeta. destruct (2 ^ n <? omp_min a), ((1 <=? n) && (n <=? 24)); (constructor; [|constructor]); cbn [WritesIn.wr_act].
  - constructor; [|constructor]. intro. cbn [snd single]. apply wr_fft_s; auto.
  - constructor; [|constructor]. intro. exact I.
  - apply wr_fft_o; auto.
  - constructor.
Qed.

(** ** mixed radix *)
Lemma wr_any_acc i k xa wa j : wr_in (any_acc i k xa wa j).
Proof. induction j as [|j IH]; cbn [any_acc]; [exact I|]. apply wr_bind; [exact IH|]. wr_go. Qed.
Lemma wr_fwdfftany fuel : forall r n s eo x y W, S (fst x) -> S (fst y) -> wr_in (fwdfftany fuel r n s eo x y W).
Proof.
  induction fuel as [|fuel IH]; intros r n s eo x y W Hx Hy; cbn [fwdfftany]; [exact I|]. cbv zeta. destruct (find_factor n r n) as [k|]; [|exact I].
  destruct (k =? n); apply wr_bind; intros; auto.
  - unfold fwdany_end_body. cbv zeta. apply wr_for. intros. apply wr_for. intros. apply wr_bind; [apply wr_any_acc|]. wr_go.
  - wr_go.
  - unfold fwdany_core_body. cbv zeta. apply wr_for. intros. apply wr_for. intros. apply wr_for. intros. apply wr_bind; [apply wr_any_acc|]. wr_go.
Qed.
Lemma wr_invfftany fuel : forall r n s eo x y W, S (fst x) -> S (fst y) -> wr_in (invfftany fuel r n s eo x y W).
Proof.
  induction fuel as [|fuel IH]; intros r n s eo x y W Hx Hy; cbn [invfftany]; [exact I|]. cbv zeta. destruct (find_factor n r n) as [k|]; [|exact I].
  destruct (k =? n); apply wr_bind; intros; auto.
  - unfold invany_end_body. cbv zeta. apply wr_for. intros. apply wr_for. intros. apply wr_bind; [apply wr_any_acc|]. wr_go.
  - wr_go.
  - unfold invany_core_body. cbv zeta. apply wr_for. intros. apply wr_for. intros. apply wr_for. intros. apply wr_bind; [apply wr_any_acc|]. wr_go.
Qed.
Lemma wr_fwdfftanyp fuel : forall r n s eo x y W, S (fst x) -> S (fst y) -> Forall wr_phase (fwdfftanyp fuel r n s eo x y W).
Proof.
  induction fuel as [|fuel IH]; intros r n s eo x y W Hx Hy; cbn [fwdfftanyp]; [repeat constructor; intro; exact I|]. cbv zeta.
  destruct (find_factor n r n) as [k|]; [|repeat constructor; intro; exact I].
  destruct (k =? n); constructor; auto.
  - intro. cbn [snd]. unfold fwdany_end_body. cbv zeta. apply wr_for. intros. apply wr_bind; [apply wr_any_acc|]. wr_go.
  - wr_go.
  - intro. cbn [snd]. unfold fwdany_core_body. cbv zeta. apply wr_for. intros. apply wr_bind; [apply wr_any_acc|]. wr_go.
Qed.
Lemma wr_invfftanyp fuel : forall r n s eo x y W, S (fst x) -> S (fst y) -> Forall wr_phase (invfftanyp fuel r n s eo x y W).
Proof.
  induction fuel as [|fuel IH]; intros r n s eo x y W Hx Hy; cbn [invfftanyp]; [repeat constructor; intro; exact I|]. cbv zeta.
  destruct (find_factor n r n) as [k|]; [|repeat constructor; intro; exact I].
  destruct (k =? n); constructor; auto.
  - intro. cbn [snd]. unfold invany_end_body. cbv zeta. apply wr_for. intros. apply wr_bind; [apply wr_any_acc|]. wr_go.
  - wr_go.
  - intro. cbn [snd]. unfold invany_core_body. cbv zeta. apply wr_for. intros. apply wr_bind; [apply wr_any_acc|]. wr_go.
Qed.
Ltac mixed_go IH Hany := cbv zeta; repeat match goal with |- context [if ?c then _ else _] => destruct c end;
  try (apply wr_bind; [|intros; apply IH; auto]); try (constructor; [|solve [apply IH; auto | constructor]]); try (apply Hany; auto); wr_go.
Lemma wr_fwdfft fuel : forall n s eo x y W, S (fst x) -> S (fst y) -> wr_in (fwdfft fuel n s eo x y W).
Proof. induction fuel as [|fuel IH]; intros n s eo x y W Hx Hy; cbn [fwdfft]; [exact I|]. mixed_go IH wr_fwdfftany. Qed.
Lemma wr_invfft fuel : forall n s eo x y W, S (fst x) -> S (fst y) -> wr_in (invfft fuel n s eo x y W).
Proof. induction fuel as [|fuel IH]; intros n s eo x y W Hx Hy; cbn [invfft]; [exact I|]. mixed_go IH wr_invfftany. Qed.
Lemma wr_fwdfftp fuel : forall n s eo x y W, S (fst x) -> S (fst y) -> Forall wr_phase (fwdfftp fuel n s eo x y W).
Proof. induction fuel as [|fuel IH]; intros n s eo x y W Hx Hy; cbn [fwdfftp]; [repeat constructor; intro; exact I|]. mixed_go IH wr_fwdfftanyp. Qed.
Lemma wr_invfftp fuel : forall n s eo x y W, S (fst x) -> S (fst y) -> Forall wr_phase (invfftp fuel n s eo x y W).
Proof. induction fuel as [|fuel IH]; intros n s eo x y W Hx Hy; cbn [invfftp]; [repeat constructor; intro; exact I|]. mixed_go IH wr_invfftanyp. Qed.
Lemma wr_mixed_run b N k x y : S (fst x) -> S (fst y) -> Forall wr_act (mixed_run b N k x y).
Proof.
  intros Hx Hy. unfold mixed_run, mixed_serial, mixed_parallel. cbv zeta. destruct (N <? mixed_omp).
  - constructor; [|constructor]. constructor; [|constructor]. intro. cbn [snd single]. apply wr_bind.
    + destruct (meth_inv k); [apply wr_invfft|apply wr_fwdfft]; auto.
    + intros _. destruct (mixed_coef N k); wr_go.
  - constructor.
    + cbn [WritesIn.wr_act]. destruct (meth_inv k); [apply wr_invfftp|apply wr_fwdfftp]; auto.
    + destruct (mixed_coef N k); wr_go.
Qed.

(** ** six-step and eight-step *)
Lemma wr_six_row inv n x y Ws p : S (fst x) -> S (fst y) -> wr_in (six_row inv n x y Ws p).
Proof. intros Hx Hy. unfold six_row. cbv zeta. apply wr_fft_s; auto. Qed.
Lemma wr_six_tr iv n x i : S (fst x) -> wr_in (six_tr iv n x i).
Proof. intros Hx. unfold six_tr, iv_get. destruct (iv i) as [[? ?]|]; wr_go. Qed.
Lemma wr_six_mul iv inv N mode n x W i : S (fst x) -> wr_in (six_mul iv inv N mode n x W i).
Proof. intros Hx. unfold six_mul, iv_get. destruct (iv i) as [[? ?]|]; wr_go. Qed.
Lemma wr_part1 iv inv mode log_N x y W Ws : S (fst x) -> S (fst y) -> wr_in (six_part1 iv inv mode log_N x y W Ws).
Proof. intros Hx Hy. unfold six_part1. cbv zeta. repeat (apply wr_bind; [|intros _]); apply wr_for; intros; auto using wr_six_row, wr_six_tr, wr_six_mul. Qed.
Lemma wr_part2 iv inv mode log_N x y W Ws : S (fst x) -> S (fst y) -> Forall wr_phase (six_part2 iv inv mode log_N x y W Ws).
Proof. intros Hx Hy. unfold six_part2. cbv zeta. repeat (constructor; [intro; cbn [snd]; auto using wr_six_row, wr_six_tr, wr_six_mul|]). constructor. Qed.
Lemma wr_seq r : Forall wr_phase r -> wr_in (region_seq r).
Proof. induction 1 as [|ph r H _ IH]; cbn [region_seq]; [exact I|]. apply wr_bind; auto. apply wr_for. auto. Qed.
Lemma wr_six_run b n k x y : S (fst x) -> S (fst y) -> Forall wr_act (six_run b n k x y).
Proof.
  intros Hx Hy. unfold six_run. cbv zeta. destruct (n =? 0); [constructor|]. destruct (n <=? 5).
  { constructor; [|constructor]. constructor; [|constructor]. intro. cbn [snd single]. apply wr_fft_s; auto. }
  destruct (24 <? n); [constructor|]. destruct (Nat.odd n).
  - unfold eight_fft, eight_serial, eight_parallel, eight_large. destruct (_ <? eight_omp1); [|destruct (_ <? eight_omp2)].
    + constructor; [|constructor]. constructor; [|constructor]. intro. cbn [snd single]. apply wr_bind; [|intros _; apply wr_bind; [|intros _]].
      * wr_go.
      * apply wr_for. intros. apply wr_part1; auto.
      * wr_go.
    + constructor; [|constructor]. constructor; [wr_go|]. constructor; [|constructor; [wr_go|constructor]]. intro. cbn [snd]. apply wr_part1; auto.
    + constructor; [wr_go|]. constructor; [|constructor; [wr_go|constructor]]. constructor; [|constructor]. intro. cbn [snd single]. apply wr_for. intros.
      apply wr_seq. apply wr_part2; auto.
  - unfold six_fft, six_serial, six_parallel. destruct (_ <? six_omp); constructor; [|constructor| |constructor].
    + constructor; [|constructor]. intro. cbn [snd single]. apply wr_part1; auto.
    + cbn [WritesIn.wr_act]. apply wr_part2; auto.
Qed.

(** ** the classes *)
Lemma wr_fft0_run b N k x y : S (fst x) -> S (fst y) -> Forall wr_act (fft0_run b N k x y).
Proof.
  intros Hx Hy. unfold fft0_run. destruct (select N) as [[a n|n|n]|]; cbn [engine_run]; auto using wr_pow_run, wr_six_run, wr_mixed_run. constructor; [|constructor]. constructor; [|constructor]. intro. exact I.
Qed.
Lemma wr_fft_run b N k x : S (fst x) -> S (b + 3) -> Forall wr_act (fft_run b N k x).
Proof. intros Hx Hb. apply wr_fft0_run; auto. Qed.
Ltac acts_go := repeat match goal with
  | |- Forall _ (_ ++ _) => apply Forall_app; split
  | |- Forall _ (fft0_run _ _ _ _ _) => apply wr_fft0_run; cbn [fst padd]; assumption
  | |- Forall _ (fft_run _ _ _ _) => apply wr_fft_run; cbn [fst padd]; assumption
  | |- Forall _ (omp_loop _ _ _) => unfold omp_loop
  | |- Forall _ (if ?c then _ else _) => destruct c
  | |- Forall _ [] => constructor
  | |- Forall _ (_ :: _) => constructor
  | |- WritesIn.wr_act _ _ => solve [wr_go]
  end.
Lemma wr_rfft_fwd b N k x y : S (fst y) -> Forall wr_act (rfft_fwd b N k x y).
Proof. intros Hy. unfold rfft_fwd. cbv zeta. acts_go. Qed.
Lemma wr_rfft_inv b N k x y : S (fst x) -> S (fst y) -> Forall wr_act (rfft_inv b N k x y).
Proof. intros Hx Hy. unfold rfft_inv. cbv zeta. acts_go. Qed.
Lemma wr_rfft_run b N k x y : (meth_inv k = true -> S (fst x)) -> S (fst y) -> Forall wr_act (rfft_run b N k x y).
Proof. intros Hx Hy. unfold rfft_run. destruct (meth_inv k); [apply wr_rfft_inv|apply wr_rfft_fwd]; auto. Qed.
Lemma wr_dct_run b N k x : S (fst x) -> S (b + 5) -> S (b + 6) -> Forall wr_act (dct_run b N k x).
Proof.
  intros Hx H5 H6. unfold dct_run, dct0_run. assert (Forall wr_act (dct0_fwd b N (dct_kind k) x (b + 5, 0) (b + 6, 0)) /\ Forall wr_act (dct0_inv b N (dct_kind k) x (b + 5, 0) (b + 6, 0))) as [Hf Hi]; [|destruct k; assumption].
  unfold dct0_fwd, dct0_inv. split; destruct (N <? 2); try constructor; repeat (apply Forall_app; split); try (apply wr_rfft_fwd; assumption); try (apply wr_rfft_inv; assumption); acts_go.
Qed.
Lemma wr_bl_run b N k x : S (fst x) -> S (b + 3) -> S (b + 4) -> S (b + 5) -> Forall wr_act (bl_run b N k x).
Proof. intros Hx H3 H4 H5. unfold bl_run. destruct (pad_loop 32 1 (2 * N - 1)) as [L|]; [|constructor]. unfold bl_run_L. cbv zeta. acts_go. Qed.
End Calls.
