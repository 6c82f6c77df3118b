(** * C36: alignment of the 32-byte memory accesses of the AVX builds

    The AVX builds move two complex numbers at a time with _mm256_load_pd and _mm256_store_pd, which fault unless the
    address is a multiple of 32.  [complex_va], [fft0_va], [rfft_va], [dct_va], [bluestein_va] (ModelVecApi.v) list
    these accesses for one call, each as the pair of cells it is made of.

    Address space: the array in buffer b starts at byte address [base b]; a complex number takes 16 bytes.  The arrays
    allocated by the objects come from simd_malloc, i.e. _mm_malloc(n, 32) or (.., 64) (inc/otfft_complex.h:247-253), so their
    addresses are multiples of 32. *)

From Coq Require Import List Arith ZArith Bool Lia.
From Verif Require Import Scalar Mem MemFacts Omp Lanes Engine ModelMixed ModelPow PowDrive ModelSix ModelApi ApiFacts ModelReal ModelBluestein.
From Verif Require Import Object Vec ModelVec ModelVecApi VecFacts AlignFacts Performs Via.
Import ListNotations.

(** ** Specification *)
(** byte address of a cell *)
Definition addr (base : nat -> Z) (p : ptr) : Z := (base (fst p) + 16 * Z.of_nat (snd p))%Z.
Definition aligned (base : nat -> Z) (p : ptr) : Prop := (addr base p mod 32 = 0)%Z.
(** the two halves of the access are neighbours in memory and its address is a multiple of 32 *)
Definition access_ok (base : nat -> Z) (v : ptr * ptr) : Prop :=
  aligned base (fst v) /\ addr base (snd v) = (addr base (fst v) + 16)%Z.

(** ** Proof *)
Section Calls.
Context {Op : Ops}.
Lemma engine_al b N e k x y : selects N e -> peven N x y -> Forall al (engine_va b e k x y).
Proof.
  intros Hs Hp. destruct Hs as [a n HN Hn|n HN Hn|]; cbn [engine_va].
  1,2: assert (eptr x /\ eptr y) as [Hx Hy] by (apply Hp; exists (2 ^ (n - 1)); rewrite HN; apply pow2_half; lia).
  - apply pow_al; auto.
  - apply six_al; auto.
  - unfold mixed_va. destruct N as [|N]; [constructor|]. apply mixed_fft_al; auto; [lia|left; reflexivity].
Qed.
Lemma fft0_al b N k x y : peven N x y -> Forall al (fft0_va b N k x y).
Proof.
  intros Hp. unfold fft0_va. destruct (Nat.eq_dec N 1) as [->|HN]; [rewrite select_1; constructor|].
  destruct (select_ok N HN) as (e & -> & He). apply (engine_al b N); auto.
Qed.
Lemma complex_al b N k x : eptr x -> Forall al (complex_va b N k x).
Proof. intros Hx. apply fft0_al. intros _. split; auto using eptr_0. Qed.
Lemma half_peven Nh x : eptr x -> peven Nh (x +! Nh) x.
Proof. intros Hx (h & Hh). split; auto. apply (eptr_add x Nh h); auto. Qed.
(** the real transform uses the second half of its complex array as the work area of the transform of half length *)
Lemma rfft_al b N k x y : eptr (if meth_inv k then x else y) -> Forall al (rfft_va b N k x y).
Proof.
  intros H. unfold rfft_va. destruct (N <? 2); [constructor|]. cbv zeta.
  destruct (meth_inv k); apply fft0_al, half_peven; exact H.
Qed.
Lemma dct_al b N k x : Forall al (dct_va b N k x).
Proof. unfold dct_va. destruct (N <? 2); [constructor|]. destruct k; apply rfft_al; cbn; apply eptr_0. Qed.
Lemma bluestein_al b N k x : Forall al (bluestein_va b N k x).
Proof.
  unfold bluestein_va. destruct (pad_loop 32 1 (2 * N - 1)); [|constructor]. destruct (N <? 2); [constructor|].
  apply Forall_app; split; [|apply Forall_app; split]; apply complex_al, eptr_0.
Qed.
End Calls.

Section Bytes.
Variable base : nat -> Z.
Hypothesis Hbase : forall b, (base b mod 32 = 0)%Z.
Lemma aligned_eptr p : aligned base p <-> eptr p.
Proof.
  unfold aligned, addr, eptr. pose proof (Hbase (fst p)) as Hb. apply Z.mod_divide in Hb; [|lia]. destruct Hb as [c Hc]. rewrite Hc. split.
  - intros H. apply Z.mod_divide in H; [|lia]. destruct H as [d Hd]. exists (Z.to_nat (d - c)). lia.
  - intros [h ->]. replace (c * 32 + 16 * Z.of_nat (2 * h))%Z with ((c + Z.of_nat h) * 32)%Z by lia. apply Z.mod_mul. lia.
Qed.
Lemma access_al v : al v -> access_ok base v.
Proof.
  intros [H1 H2]. split; [apply aligned_eptr, H1|]. rewrite H2. unfold addr, padd. cbn [fst snd]. lia.
Qed.
Lemma accesses_al l : Forall al l -> Forall (access_ok base) l.
Proof. intros H. eapply Forall_impl; [|exact H]. exact access_al. Qed.
End Bytes.

(** ** C36: every 32-byte access is aligned, for every length, method and array position, if the caller's complex
    array is 32-byte aligned (the real arrays of the real transform, of the DCT and Bluestein's array are only ever accessed by
    single complex numbers or doubles) *)
Theorem C36_complex_aligned : forall (Op : Ops) base b N k x, (forall b, (base b mod 32 = 0)%Z) ->
  aligned base x -> Forall (access_ok base) (complex_va b N k x).
Proof. intros Op base b N k x Hb Hx. apply accesses_al; auto. apply complex_al. apply (aligned_eptr base Hb). exact Hx. Qed.
Print Assumptions C36_complex_aligned.
(** the variant whose work area y is the caller's *)
Theorem C36_own_work_area_aligned : forall (Op : Ops) base b N k x y, (forall b, (base b mod 32 = 0)%Z) ->
  aligned base x -> aligned base y -> Forall (access_ok base) (fft0_va b N k x y).
Proof.
  intros Op base b N k x y Hb Hx Hy. apply accesses_al; auto. apply fft0_al. intros _.
  split; apply (aligned_eptr base Hb); assumption.
Qed.
Print Assumptions C36_own_work_area_aligned.
Theorem C36_real_aligned : forall (Op : Ops) base b N k x y, (forall b, (base b mod 32 = 0)%Z) ->
  aligned base (if meth_inv k then x else y) -> Forall (access_ok base) (rfft_va b N k x y).
Proof. intros Op base b N k x y Hb Hx. apply accesses_al; auto. apply rfft_al. apply (aligned_eptr base Hb). exact Hx. Qed.
Print Assumptions C36_real_aligned.
Theorem C36_dct_aligned : forall (Op : Ops) base b N k x, (forall b, (base b mod 32 = 0)%Z) ->
  Forall (access_ok base) (dct_va b N k x).
Proof. intros. apply accesses_al; auto. apply dct_al. Qed.
Print Assumptions C36_dct_aligned.
Theorem C36_bluestein_aligned : forall (Op : Ops) base b N k x, (forall b, (base b mod 32 = 0)%Z) ->
  Forall (access_ok base) (bluestein_va b N k x).
Proof. intros. apply accesses_al; auto. apply bluestein_al. Qed.
Print Assumptions C36_bluestein_aligned.

(** ** ... and these accesses are accesses the call makes: for each completed execution of the call and each listed access
    there is an execution between the same memories in which one thread loads (or stores) both halves.  ([makes] and
    [call_via], Via.v, speak about the states a call passes through.) *)
Theorem C36_complex_accesses_made : forall (Op : Ops) b N k x m m',
  call_exec (fft_run b N k x) m m' -> Forall (makes (fft_run b N k x) m m') (complex_va b N k x).
Proof. intros Op b N k x m m'. apply calls_make, sub_complex. Qed.
Print Assumptions C36_complex_accesses_made.
Theorem C36_own_work_area_accesses_made : forall (Op : Ops) b N k x y m m',
  call_exec (fft0_run b N k x y) m m' -> Forall (makes (fft0_run b N k x y) m m') (fft0_va b N k x y).
Proof. intros Op b N k x y m m'. apply calls_make, sub_fft0. Qed.
Print Assumptions C36_own_work_area_accesses_made.
Theorem C36_real_accesses_made : forall (Op : Ops) b N k x y m m',
  call_exec (rfft_run b N k x y) m m' -> Forall (makes (rfft_run b N k x y) m m') (rfft_va b N k x y).
Proof. intros Op b N k x y m m'. apply calls_make, sub_rfft. Qed.
Print Assumptions C36_real_accesses_made.
Theorem C36_dct_accesses_made : forall (Op : Ops) b N k x m m',
  call_exec (dct_run b N k x) m m' -> Forall (makes (dct_run b N k x) m m') (dct_va b N k x).
Proof. intros Op b N k x m m'. apply calls_make, sub_dct. Qed.
Print Assumptions C36_dct_accesses_made.
Theorem C36_bluestein_accesses_made : forall (Op : Ops) b N k x m m',
  call_exec (bl_run b N k x) m m' -> Forall (makes (bl_run b N k x) m m') (bluestein_va b N k x).
Proof. intros Op b N k x m m'. apply calls_make, sub_bluestein. Qed.
Print Assumptions C36_bluestein_accesses_made.

(** ** 16-byte alignment of the caller's array is not enough: with x at 16 modulo 32, a transform of length 16
    makes a misaligned 32-byte access, whatever the method *)
Theorem C36_16_bytes_not_enough : forall (Op : Ops) base b k x,
  (addr base x mod 32 = 16)%Z -> Exists (fun v => ~ access_ok base v) (complex_va b 16 k x).
Proof.
  intros Op base b k x Hx.
  assert (H : ~ aligned base (x +! 0 +! 0)).
  { unfold aligned, addr, padd in *. cbn [fst snd] in *. rewrite !Nat.add_0_r, Hx. discriminate. }
  assert (E : nth_error (complex_va b 16 k x) 3 = Some (x +! 0 +! 0, x +! 1 +! 0)) by (destruct k; reflexivity).
  apply nth_error_In in E. apply Exists_exists. eexists. split; [exact E|]. intros [Hal _]. exact (H Hal).
Qed.
Print Assumptions C36_16_bytes_not_enough.

(** ** the hypotheses can be met, and there are accesses to speak of: arrays 1 MiB apart, x in buffer 9 *)
Example C36_example : forall (Op : Ops),
  let base := fun b => (1048576 * Z.of_nat b)%Z in
  (forall b, (base b mod 32 = 0)%Z) /\ aligned base (9, 0) /\ 10 <= length (complex_va 0 16 fwd (9, 0)) /\ 10 <= length (complex_va 0 48 inv (9, 0)) /\ 10 <= length (rfft_va 0 40 fwd (9, 0) (8, 0)) + length (rfft_va 0 32 invn (9, 0) (8, 0)).
Proof.
  intros Op base. split; [|split; [|split; [|split]]].
  - intros b. unfold base. replace (1048576 * Z.of_nat b)%Z with (32768 * Z.of_nat b * 32)%Z by lia. apply Z.mod_mul. lia.
  - reflexivity.
  - apply Nat.leb_le. vm_compute. reflexivity.
  - apply Nat.leb_le. vm_compute. reflexivity.
  - apply Nat.leb_le. vm_compute. reflexivity.
Qed.
