(** Property C08, continued: complex NaNs, the phase argument, empty axes *)
From Coq Require Import ZArith Lia List Reals Lra Bool.
From Coquelicot Require Import Complex.
From Verif Require Import Base NDim DFT Kernel Py M_fast_ffts M_shift Spec L_shift.
Import ListNotations.
Open Scope R_scope.

(** a NaN component of a complex pixel counts as 0, the other component is kept *)
Theorem C08_nan_is_zero_complex :
  forall env (img : arr cnum) d phase nt np rabs rreal,
  same_result (shiftnd env img d phase nt np rabs rreal)
              (shiftnd env (amap (fun z => (Fin (nan0 (fst z)), Fin (nan0 (snd z)))) img) d phase nt np rabs rreal).
Proof.
  intros. unfold shiftnd. destruct (get_ffts env nt np) as [fw iv] eqn:E.
  replace (clean_nan (amap (fun z : cnum => (Fin (nan0 (fst z)), Fin (nan0 (snd z)))) img)) with (clean_nan img).
  2:{ unfold clean_nan, amap. simpl. f_equal. }
  simpl. unfold check_freqs, check_fft.
  destruct (existsb _ _); simpl; auto. destruct (pos_shapeb _); simpl; auto.
  unfold pick. destruct rreal; [|destruct rabs]; simpl; apply aeq_refl.
Qed.
Print Assumptions C08_nan_is_zero_complex.

(** the phase argument multiplies the complex result by exp(-i phase), for every offset, and drops out of the modulus *)
Theorem C08_phase_argument :
  forall env (img : arr cnum) d phase nt np,
  pos_shape (shape img) ->
  exists r0 r m0 m,
    shiftnd env img d 0 nt np false false = Ok (CplxArr r0) /\
    shiftnd env img d phase nt np false false = Ok (CplxArr r) /\
    shiftnd env img d 0 nt np true false = Ok (RealArr m0) /\
    shiftnd env img d phase nt np true false = Ok (RealArr m) /\
    forall x, inb (shape img) x ->
      get r x = Cmult (cos phase, - sin phase) (get r0 x) /\ get m x = get m0 x.
Proof.
  intros env img d ph nt np Hp.
  destruct (shiftnd_ok env img d 0 nt np false false Hp) as [r0 [H0 [_ V0]]].
  destruct (shiftnd_ok env img d ph nt np false false Hp) as [r [H1 [_ V1]]].
  destruct (shiftnd_ok env img d 0 nt np true false Hp) as [m0 [H2 [_ V2]]].
  destruct (shiftnd_ok env img d ph nt np true false Hp) as [m [H3 [_ V3]]].
  do 4 eexists. split; [exact H0|]. split; [exact H1|]. split; [exact H2|]. split; [exact H3|].
  intros x Hx.
  assert (K : shifted (shape img) (fun i => cnan0 (get img i)) (fit_offset d (shape img)) ph x =
     Cmult (cis (- ph)) (shifted (shape img) (fun i => cnan0 (get img i)) (fit_offset d (shape img)) 0 x)).
  { unfold shifted. rewrite Ropp_0, cis_0. ring. }
  split.
  - rewrite V1, V0, K by auto. f_equal. unfold cis. rewrite cos_neg, sin_neg. reflexivity.
  - simpl. rewrite V3, V2, K by auto. rewrite Cmod_mult.
    rewrite Cmod_cis. ring.
Qed.
Print Assumptions C08_phase_argument.

(** An array with an axis of length zero cannot be shifted: ZeroDivisionError if that axis has an offset, ValueError otherwise. *)
Theorem C08_empty_axes :
  forall env (img : arr cnum) d phase nt np rabs rreal,
  (forall n, In n (shape img) -> (0 <= n)%Z) -> In 0%Z (shape img) ->
  (In 0%Z (firstn (length d) (shape img)) ->
     shiftnd env img d phase nt np rabs rreal = Raise ZeroDivisionError) /\
  (~ In 0%Z (firstn (length d) (shape img)) ->
     shiftnd env img d phase nt np rabs rreal = Raise ValueError).
Proof.
  intros env img d ph nt np rabs rreal Hn H0. unfold shiftnd. destruct (get_ffts env nt np) as [fw iv].
  assert (E : map snd (combine d (shape img)) = firstn (length d) (shape img)).
  { clear. generalize (shape img). induction d as [|a d IH]; intros [|n sh]; simpl; auto. f_equal. apply IH. }
  rewrite E. split; intros H.
  - unfold check_freqs. replace (existsb _ _) with true; [reflexivity|].
    symmetry. apply existsb_exists. exists 0%Z. split; auto.
  - unfold check_freqs. replace (existsb _ _) with false.
    + simpl. unfold check_fft. replace (pos_shapeb (shape img)) with false; [reflexivity|].
      symmetry. apply not_true_is_false. intros K. apply pos_shapeb_spec in K. unfold pos_shape in K. rewrite Forall_forall in K.
      specialize (K 0%Z H0). lia.
    + symmetry. apply not_true_is_false. intros K. apply existsb_exists in K. destruct K as [n [K1 K2]].
      apply Z.eqb_eq in K2. subst n. auto.
Qed.
Print Assumptions C08_empty_axes.

Example C08_2_nonvacuous :
  pos_shape (shape (Arr [2; 3]%Z (fun _ => (NaN, Fin 1)))) /\
  In 0%Z (shape (Arr [2; 0]%Z (fun _ => (Fin 1, Fin 0)))) /\
  ~ In 0%Z (firstn (length [1/2]) (shape (Arr [2; 0]%Z (fun _ => (Fin 1, Fin 0))))) /\
  In 0%Z (firstn (length [1/2; 1]) (shape (Arr [2; 0]%Z (fun _ => (Fin 1, Fin 0))))).
Proof.
  split; [repeat constructor; simpl; lia|]. split; [simpl; auto|]. split; [|simpl; auto]. simpl. intros [H|[]]. discriminate H.
Qed.
