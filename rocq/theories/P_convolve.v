(** Properties C26-C30: convolvend *)
From Coq Require Import ZArith Lia List Reals Lra Bool.
From Coquelicot Require Import Complex.
From Verif Require Import Base NDim DFT Kernel Py M_fast_ffts M_shift M_convolve Spec L_shift L_convolve.
Import ListNotations.
Open Scope R_scope.

(** *** Specification *)
Definition pix (x : num) : R := match x with Fin r => r | NaN => 0 end.
(** the kernel pixel that stays on the output pixel: n//2 on every axis *)
Definition kernel_centre (ksh : list Z) : list Z := map (fun n => (n / 2)%Z) ksh.
(** image extended by the constant v / periodically *)
Definition fill_sample (a : arr num) (v : R) (p : list Z) : R := if inbb (shape a) p then pix (get a p) else v.
Definition wrap_sample (a : arr num) (p : list Z) : R := pix (get a (modl (shape a) p)).
(** sum_k kernel[k] * sample(x - (k - centre)) *)
Definition conv_spec (kernel : arr num) (sample : list Z -> R) (x : list Z) : R :=
  sumNR (shape kernel) (fun k => pix (get kernel k) * sample (subl x (subl k (kernel_centre (shape kernel))))).
Definition no_larger (ksh ash : list Z) : Prop := Forall2 (fun k a => (k <= a)%Z) ksh ash.

Lemma zeroed_num (a : arr num) i : get (nan_zeroed (of_num a)) i = RtoC (pix (get a i)).
Proof. unfold nan_zeroed, of_num; simpl. unfold cisnan, cnan0; simpl. destruct (get a i); reflexivity. Qed.

Lemma Re_sum_RtoC sh (f g : list Z -> R) : Re (sumNC sh (fun k => Cmult (RtoC (f k)) (RtoC (g k)))) = sumNR sh (fun k => f k * g k).
Proof. rewrite Re_sumNC. apply sumNR_ext. intros k Hk. simpl. ring. Qed.

Lemma embed_RtoC N n (f : list Z -> R) v i : embed N n (fun k => RtoC (f k)) (RtoC v) i = RtoC (embed N n f v i).
Proof. unfold embed. destruct (inbb n (subl i (starts N n))); reflexivity. Qed.

Lemma embed_ext {A} N n (f g : list Z -> A) v i : (forall k, f k = g k) -> embed N n f v i = embed N n g v i.
Proof. intros H. unfold embed. destruct (inbb n (subl i (starts N n))); auto. Qed.

(** *** C26: the fill boundary never wraps *)
Theorem C26_fill_boundary_never_wraps :
  forall env (array kernel : arr num) b v fftshift fft_pad psf_pad min_wt use_np nthreads,
  pos_shape (shape array) -> pos_shape (shape kernel) -> length (shape array) = length (shape kernel) -> shape array <> [] ->
  b = BFill \/ b = BNone ->
  exists out, convolvend env true true (of_num array) (of_num kernel) b (Fin v) true false fftshift fft_pad psf_pad
                false false min_wt NkFalse use_np nthreads = Ok (ConvReal out) /\
    shape out = shape array /\
    forall x, inb (shape array) x -> get out x = Fin (conv_spec kernel (fill_sample array v) x).
Proof.
  intros env array kernel b v fs fp pp mw unp nt Ha Hk Hl Hne Hb.
  assert (Hsh : shapes_ok (shape (of_num array)) (shape (of_num kernel))) by (repeat split; auto).
  assert (Hok := convolvend_ok env (of_num array) (of_num kernel) b (Fin v) true fs fp pp false false mw NkFalse unp nt Hsh Hne).
  assert (Ep : pads b fp pp (Fin v) = (fp, true, Fin v)) by (destruct Hb as [-> | ->]; reflexivity).
  rewrite Ep in Hok. cbv zeta in Hok. destruct Hok as [out [H1 [H2 H3]]]; auto; try discriminate; [destruct Hb; subst; discriminate|exact I|].
  exists out. split; [exact H1|]. split; [exact H2|]. intros x Hx. rewrite H3 by (rewrite H2; exact Hx). cbn [orb andb].
  f_equal. unfold conv_at, conv_spec. change (shape (of_num kernel)) with (shape kernel). change (shape (of_num array)) with (shape array).
  rewrite <- Re_sum_RtoC. f_equal. apply sumNC_ext. intros k Hkk. cbn [the_kernel]. rewrite zeroed_num. f_equal.
  rewrite (embed_ext _ _ _ (fun i => RtoC (pix (get array i)))) by (intros; apply zeroed_num).
  rewrite embed_pad; auto.
  - unfold fill_sample, halfl, kernel_centre. destruct (inbb _ _); reflexivity.
  - apply newshape_psf. exact Hsh.
Qed.
Print Assumptions C26_fill_boundary_never_wraps.

(** the same for complex images and kernels: the real part of the complex sum *)
Definition cpix (z : cnum) : C := if cisnan z then RtoC 0 else (pix (fst z), pix (snd z)).
Theorem C26_fill_boundary_complex_inputs :
  forall env (array kernel : arr cnum) v fftshift fft_pad psf_pad min_wt use_np nthreads,
  pos_shape (shape array) -> pos_shape (shape kernel) -> length (shape array) = length (shape kernel) -> shape array <> [] ->
  exists out, convolvend env true true array kernel BFill (Fin v) true false fftshift fft_pad psf_pad
                false false min_wt NkFalse use_np nthreads = Ok (ConvReal out) /\
    shape out = shape array /\
    forall x, inb (shape array) x ->
      get out x = Fin (Re (sumNC (shape kernel) (fun k => Cmult (cpix (get kernel k))
         (let p := subl x (subl k (kernel_centre (shape kernel))) in
          if inbb (shape array) p then cpix (get array p) else RtoC v)))).
Proof.
  intros env array kernel v fs fp pp mw unp nt Ha Hk Hl Hne.
  assert (Hsh : shapes_ok (shape array) (shape kernel)) by (repeat split; auto).
  assert (Hok := convolvend_ok env array kernel BFill (Fin v) true fs fp pp false false mw NkFalse unp nt Hsh Hne).
  cbv zeta in Hok. cbn [pads] in Hok. destruct Hok as [out [H1 [H2 H3]]]; auto; try discriminate; [exact I|].
  exists out. split; [exact H1|]. split; [exact H2|]. intros x Hx. rewrite H3 by (rewrite H2; exact Hx). cbn [orb andb].
  do 2 f_equal. unfold conv_at. apply sumNC_ext. intros k Hkk. cbn [the_kernel]. f_equal.
  rewrite embed_pad; auto. apply newshape_psf. exact Hsh.
Qed.
Print Assumptions C26_fill_boundary_complex_inputs.

Example C26_nonvacuous : let a := mk1 5 (fun x => if (x =? 2)%Z then NaN else Fin (IZR x)) in let k := mk1 8 (fun x => Fin (IZR (x + 1))) in
  pos_shape (shape a) /\ pos_shape (shape k) /\ length (shape a) = length (shape k) /\ shape a <> [] /\
  conv_spec k (fill_sample a 0) [0%Z] = sumNR [8%Z] (fun q => pix (get k q) * fill_sample a 0 (subl [0%Z] (subl q [4%Z]))).
Proof. cbv zeta. repeat split; try discriminate; repeat constructor. Qed.

(** *** C27: wrap is circular convolution *)
Theorem C27_wrap_is_circular_convolution :
  forall env (array kernel : arr num) fill fftshift fft_pad psf_pad min_wt use_np nthreads,
  pos_shape (shape array) -> pos_shape (shape kernel) -> no_larger (shape kernel) (shape array) -> shape array <> [] ->
  exists out, convolvend env true true (of_num array) (of_num kernel) BWrap fill true false fftshift fft_pad psf_pad
                false false min_wt NkFalse use_np nthreads = Ok (ConvReal out) /\
    shape out = shape array /\
    forall x, inb (shape array) x -> get out x = Fin (conv_spec kernel (wrap_sample array) x).
Proof.
  intros env array kernel fill fs fp pp mw unp nt Ha Hk Hle Hne.
  assert (Hl : length (shape kernel) = length (shape array)) by (apply (Forall2_len _ _ _ Hle)).
  assert (Hsh : shapes_ok (shape (of_num array)) (shape (of_num kernel))) by (repeat split; auto).
  assert (Hok := convolvend_ok env (of_num array) (of_num kernel) BWrap fill true fs fp pp false false mw NkFalse unp nt Hsh Hne).
  cbv zeta in Hok. cbn [pads] in Hok. destruct Hok as [out [H1 [H2 H3]]]; auto; try discriminate; [exact I|].
  exists out. split; [exact H1|]. split; [exact H2|]. intros x Hx. rewrite H3 by (rewrite H2; exact Hx). cbn [orb andb].
  f_equal. unfold conv_at, conv_spec. change (shape (of_num kernel)) with (shape kernel). change (shape (of_num array)) with (shape array).
  rewrite newshape_wrap by exact Hle. rewrite starts_self, addl_zeros by (apply inb_length; auto).
  rewrite <- Re_sum_RtoC. f_equal. apply sumNC_ext. intros k Hkk. cbn [the_kernel]. rewrite zeroed_num. f_equal.
  rewrite embed_self.
  - rewrite zeroed_num. reflexivity.
  - apply modl_inb; auto. apply inb_length in Hx. apply inb_length in Hkk.
    rewrite !subl_length. unfold halfl. rewrite map_length. lia.
Qed.
Print Assumptions C27_wrap_is_circular_convolution.

Example C27_nonvacuous : let a := mk2 4 5 (fun y x => Fin (IZR (y - x))) in let k := mk2 2 3 (fun y x => Fin (IZR (y + x))) in
  pos_shape (shape a) /\ pos_shape (shape k) /\ no_larger (shape k) (shape a) /\ shape a <> [].
Proof. cbv zeta. repeat split; try discriminate; repeat constructor; lia. Qed.

(** *** C28: output geometry *)
Lemma Forall2_imp {A B} (P Q : A -> B -> Prop) l m : (forall a b, P a b -> Q a b) -> Forall2 P l m -> Forall2 Q l m.
Proof. induction 2; constructor; auto. Qed.

Definition boundary_ok (b : boundary) : Prop := b <> BExtend.

Theorem C28_output_shape :
  forall env (array kernel : arr num) b v crop fftshift fft_pad psf_pad min_wt use_np nthreads,
  pos_shape (shape array) -> pos_shape (shape kernel) -> length (shape array) = length (shape kernel) -> shape array <> [] ->
  boundary_ok b ->
  exists out, convolvend env true true (of_num array) (of_num kernel) b (Fin v) crop false fftshift fft_pad psf_pad
                false false min_wt NkFalse use_np nthreads = Ok (ConvReal out) /\
    (crop = true -> shape out = shape array) /\
    (crop = false -> length (shape out) = length (shape array) /\
       Forall2 Z.le (shape array) (shape out) /\ Forall2 Z.le (shape kernel) (shape out) /\
       (b = BFill \/ b = BNone -> Forall2 Z.le (zipw Z.add (shape array) (shape kernel)) (shape out)) /\
       (b = BWrap -> shape out = zipw Z.max (shape array) (shape kernel))).
Proof.
  intros env array kernel b v crop fs fp pp mw unp nt Ha Hk Hl Hne Hb.
  assert (Hsh : shapes_ok (shape (of_num array)) (shape (of_num kernel))) by (repeat split; auto).
  assert (Hok := convolvend_ok env (of_num array) (of_num kernel) b (Fin v) crop fs fp pp false false mw NkFalse unp nt Hsh Hne Hb).
  assert (Hnan : isnan (snd (pads b fp pp (Fin v))) = false) by (destruct b; reflexivity).
  specialize (Hok Hnan I ltac:(discriminate)).
  destruct (pads b fp pp (Fin v)) as [[fpad ppad] w] eqn:Ep. cbv zeta in Hok. destruct Hok as [out [H1 [H2 _]]].
  exists out. split; [exact H1|]. split; intros ->; [exact H2|].
  assert (G1 := newshape_ge_array fpad ppad _ _ Hsh). assert (G2 := newshape_ge_kernel fpad ppad _ _ Hsh).
  change (shape (of_num kernel)) with (shape kernel) in *. change (shape (of_num array)) with (shape array) in *.
  rewrite H2. repeat split.
  - symmetry. exact (Forall2_len _ _ _ G1).
  - eapply Forall2_imp; [|exact G1]. cbv beta; intros; lia.
  - eapply Forall2_imp; [|exact G2]. cbv beta; intros; lia.
  - intros Hbb. assert (ppad = true) by (destruct Hbb; subst b; simpl in Ep; congruence). subst ppad. apply newshape_psf. exact Hsh.
  - intros ->. simpl in Ep. injection Ep as <- <- _. reflexivity.
Qed.
Print Assumptions C28_output_shape.

(** a kernel that is 1 at n//2 and 0 elsewhere returns the image (NaN -> 0), for every boundary and kernel size *)
Theorem C28_delta_kernel_is_identity :
  forall env (array kernel : arr num) b v fftshift fft_pad psf_pad min_wt use_np nthreads,
  pos_shape (shape array) -> pos_shape (shape kernel) -> length (shape array) = length (shape kernel) -> shape array <> [] ->
  boundary_ok b ->
  get kernel (kernel_centre (shape kernel)) = Fin 1 ->
  (forall k, inb (shape kernel) k -> k <> kernel_centre (shape kernel) -> get kernel k = Fin 0 \/ get kernel k = NaN) ->
  exists out, convolvend env true true (of_num array) (of_num kernel) b (Fin v) true false fftshift fft_pad psf_pad
                false false min_wt NkFalse use_np nthreads = Ok (ConvReal out) /\
    shape out = shape array /\ forall x, inb (shape array) x -> get out x = Fin (pix (get array x)).
Proof.
  intros env array kernel b v fs fp pp mw unp nt Ha Hk Hl Hne Hb Hc H0.
  assert (Hsh : shapes_ok (shape (of_num array)) (shape (of_num kernel))) by (repeat split; auto).
  assert (Hok := convolvend_ok env (of_num array) (of_num kernel) b (Fin v) true fs fp pp false false mw NkFalse unp nt Hsh Hne Hb).
  assert (Hnan : isnan (snd (pads b fp pp (Fin v))) = false) by (destruct b; reflexivity).
  specialize (Hok Hnan I ltac:(discriminate)).
  destruct (pads b fp pp (Fin v)) as [[fpad ppad] w]. cbv zeta in Hok. destruct Hok as [out [H1 [H2 H3]]].
  exists out. split; [exact H1|]. split; [exact H2|]. intros x Hx. rewrite H3 by (rewrite H2; exact Hx). cbn [orb andb].
  f_equal. unfold conv_at. change (shape (of_num kernel)) with (shape kernel). change (shape (of_num array)) with (shape array).
  set (N := newshape fpad ppad (shape array) (shape kernel)).
  assert (Hfa := Forall2_fits _ _ (newshape_ge_array fpad ppad _ _ Hsh)).
  change (shape (of_num kernel)) with (shape kernel) in Hfa. change (shape (of_num array)) with (shape array) in Hfa. fold N in Hfa.
  destruct (newshape_pos fpad ppad _ _ Hsh) as [HpN HlN].
  change (shape (of_num kernel)) with (shape kernel) in HpN, HlN. change (shape (of_num array)) with (shape array) in HpN, HlN. fold N in HpN, HlN.
  assert (HX := fits_addl _ _ _ x Hfa Hx).
  assert (Hci : inb (shape kernel) (kernel_centre (shape kernel))).
  { clear - Hk. unfold kernel_centre. induction (shape kernel) as [|n l IH]; simpl; auto. apply pos_shape_cons in Hk.
    split; [|apply IH; tauto]. split; [apply Z.div_pos; lia|apply Z.div_lt; lia]. }
  rewrite (sumNC_single (shape kernel) _ (kernel_centre (shape kernel))); auto.
  - cbn [the_kernel]. rewrite zeroed_num, Hc. cbn [pix]. rewrite Cmult_1_l.
    assert (Ez : subl (kernel_centre (shape kernel)) (halfl (shape kernel)) = zerosl N).
    { unfold kernel_centre, halfl. assert (El : length (shape kernel) = length N) by lia. clear - El. revert El. generalize (shape kernel).
      induction N as [|n N IH]; intros [|k l] E; simpl in *; try discriminate; auto. unfold subl, zerosl in *. simpl. rewrite IH by lia. f_equal. lia. }
    rewrite Ez, subl_zeros by (apply inb_length; auto). rewrite modl_small by auto.
    unfold embed.
    assert (Es : subl (addl x (starts N (shape array))) (starts N (shape array)) = x).
    { assert (E1 : length x = length (starts N (shape array))) by (rewrite (proj1 (fits_len _ _ _ Hfa)); rewrite (inb_length _ _ Hx); lia).
      clear - E1. revert E1. generalize (starts N (shape array)). induction x as [|a x IH]; intros [|s l] E; simpl in *; try discriminate; auto.
      unfold subl, addl in *. simpl. rewrite IH by lia. f_equal. lia. }
    rewrite Es. rewrite (proj2 (inbb_spec _ _) Hx). rewrite zeroed_num. reflexivity.
  - intros k Hkk Hkc. cbn [the_kernel]. rewrite zeroed_num. destruct (H0 k Hkk Hkc) as [-> | ->]; cbn [pix]; apply Cmult_0_l.
Qed.
Print Assumptions C28_delta_kernel_is_identity.

Theorem C28_errors :
  forall env (array kernel : arr cnum) b fill crop rf fs fp pp ia ie mw nk unp nt,
  (length (shape array) <> length (shape kernel) ->
     convolvend env true true array kernel b fill crop rf fs fp pp ia ie mw nk unp nt = Raise PlainException) /\
  (length (shape array) = length (shape kernel) ->
     convolvend env true true array kernel BExtend fill crop rf fs fp pp ia ie mw nk unp nt = Raise NotImplementedError).
Proof.
  intros. unfold convolvend, ndim. cbn [negb]. destruct (get_ffts env nt unp). split; intros H.
  - replace (Nat.eqb (length (shape array)) (length (shape kernel))) with false by (symmetry; apply Nat.eqb_neq; exact H). reflexivity.
  - rewrite H, Nat.eqb_refl. cbn [negb]. destruct nk; reflexivity.
Qed.
Print Assumptions C28_errors.

Example C28_nonvacuous : let k := mk2 4 3 (fun y x => if (y =? 2)%Z && (x =? 1)%Z then Fin 1 else Fin 0) in
  get k (kernel_centre (shape k)) = Fin 1 /\ forall i, inb (shape k) i -> i <> kernel_centre (shape k) -> get k i = Fin 0 \/ get k i = NaN.
Proof.
  cbv zeta. split; [reflexivity|]. intros i Hi Hne. apply inb2 in Hi. destruct Hi as [y [x [-> _]]]. simpl in *.
  destruct (Z.eqb_spec y 2), (Z.eqb_spec x 1); simpl; auto. subst. contradiction Hne. reflexivity.
Qed.

(** *** C29: normalised kernels conserve constants and flux *)
Lemma norm_kernel_num (kernel : arr num) : sumNC (shape (nan_zeroed (of_num kernel))) (get (nan_zeroed (of_num kernel))) =
  RtoC (sumNR (shape kernel) (fun k => pix (get kernel k))).
Proof.
  rewrite <- sumNC_RtoC. apply sumNC_ext. intros k Hk. apply zeroed_num.
Qed.

Lemma wrap_normalised env (array kernel : arr num) fill fs fp pp mw unp nt s :
  pos_shape (shape array) -> pos_shape (shape kernel) -> no_larger (shape kernel) (shape array) -> shape array <> [] ->
  s = sumNR (shape kernel) (fun k => pix (get kernel k)) -> s <> 0 ->
  exists out, convolvend env true true (of_num array) (of_num kernel) BWrap fill true false fs fp pp
                false false mw NkTrue unp nt = Ok (ConvReal out) /\
    shape out = shape array /\
    forall x, inb (shape array) x -> get out x = Fin (conv_spec kernel (wrap_sample array) x / s).
Proof.
  intros Ha Hk Hle Hne Es Hs.
  assert (Hl : length (shape kernel) = length (shape array)) by (apply (Forall2_len _ _ _ Hle)).
  assert (Hsh : shapes_ok (shape (of_num array)) (shape (of_num kernel))) by (repeat split; auto).
  assert (Hok := convolvend_ok env (of_num array) (of_num kernel) BWrap fill true fs fp pp false false mw NkTrue unp nt Hsh Hne).
  cbv zeta in Hok. cbn [pads] in Hok. destruct Hok as [out [H1 [H2 H3]]]; auto; try discriminate.
  { cbn [norm_ok]. rewrite norm_kernel_num, <- Es. apply RtoC_neq0; auto. }
  exists out. split; [exact H1|]. split; [exact H2|]. intros x Hx. rewrite H3 by (rewrite H2; exact Hx). cbn [orb andb].
  f_equal. unfold conv_at, conv_spec. change (shape (of_num kernel)) with (shape kernel). change (shape (of_num array)) with (shape array).
  rewrite newshape_wrap by exact Hle. rewrite starts_self, addl_zeros by (apply inb_length; auto).
  unfold Rdiv. rewrite <- sumNR_scal_r. rewrite Re_sumNC. apply sumNR_ext. intros k Hkk. cbn [the_kernel].
  rewrite norm_kernel_num, <- Es, zeroed_num. rewrite embed_self.
  - rewrite zeroed_num. unfold Cdiv. rewrite <- RtoC_inv by auto. rewrite <- !RtoC_mult. unfold wrap_sample, kernel_centre, halfl.
    cbn [Re fst RtoC]. ring.
  - apply modl_inb; auto. apply inb_length in Hx. apply inb_length in Hkk.
    rewrite !subl_length. unfold halfl. rewrite map_length. lia.
Qed.

Theorem C29_constant_image_unchanged :
  forall env (array kernel : arr num) fill fftshift fft_pad psf_pad min_wt use_np nthreads c,
  pos_shape (shape array) -> pos_shape (shape kernel) -> no_larger (shape kernel) (shape array) -> shape array <> [] ->
  sumNR (shape kernel) (fun k => pix (get kernel k)) <> 0 ->
  (forall x, inb (shape array) x -> get array x = Fin c) ->
  exists out, convolvend env true true (of_num array) (of_num kernel) BWrap fill true false fftshift fft_pad psf_pad
                false false min_wt NkTrue use_np nthreads = Ok (ConvReal out) /\ aeq out array.
Proof.
  intros env array kernel fill fs fp pp mw unp nt c Ha Hk Hle Hne Hs Hc.
  destruct (wrap_normalised env array kernel fill fs fp pp mw unp nt _ Ha Hk Hle Hne eq_refl Hs) as [out [H1 [H2 H3]]].
  exists out. split; [exact H1|]. split; [exact H2|]. intros x Hx. rewrite H2 in Hx. rewrite H3, Hc by auto. f_equal.
  unfold conv_spec. rewrite (sumNR_ext (shape kernel) _ (fun k => pix (get kernel k) * c)).
  - rewrite sumNR_scal_r. field. auto.
  - intros k Hkk. f_equal. unfold wrap_sample. rewrite Hc; auto. apply modl_inb; auto.
    assert (E := Forall2_len _ _ _ Hle). apply inb_length in Hx. apply inb_length in Hkk.
    rewrite !subl_length. unfold kernel_centre. rewrite map_length. lia.
Qed.
Print Assumptions C29_constant_image_unchanged.

Lemma subl_addl_opp : forall x d, length d = length x -> subl x d = addl x (map Z.opp d).
Proof.
  induction x as [|a x IH]; intros [|e d] E; simpl in *; try discriminate; auto.
  unfold subl, addl in *. simpl. rewrite IH by lia. f_equal.
Qed.

Theorem C29_total_flux_conserved :
  forall env (array kernel : arr num) fill fftshift fft_pad psf_pad min_wt use_np nthreads,
  pos_shape (shape array) -> pos_shape (shape kernel) -> no_larger (shape kernel) (shape array) -> shape array <> [] ->
  sumNR (shape kernel) (fun k => pix (get kernel k)) <> 0 ->
  exists out, convolvend env true true (of_num array) (of_num kernel) BWrap fill true false fftshift fft_pad psf_pad
                false false min_wt NkTrue use_np nthreads = Ok (ConvReal out) /\ shape out = shape array /\
    (forall x, inb (shape array) x -> exists r, get out x = Fin r) /\
    sumNR (shape array) (fun x => pix (get out x)) = sumNR (shape array) (fun x => pix (get array x)).
Proof.
  intros env array kernel fill fs fp pp mw unp nt Ha Hk Hle Hne Hs.
  destruct (wrap_normalised env array kernel fill fs fp pp mw unp nt _ Ha Hk Hle Hne eq_refl Hs) as [out [H1 [H2 H3]]].
  set (s := sumNR (shape kernel) (fun k => pix (get kernel k))) in *.
  exists out. split; [exact H1|]. split; [exact H2|]. split; [intros x Hx; rewrite H3 by auto; eauto|].
  rewrite (sumNR_ext (shape array) _ (fun x => conv_spec kernel (wrap_sample array) x / s)) by (intros x Hx; rewrite H3 by auto; reflexivity).
  unfold Rdiv. rewrite sumNR_scal_r. unfold conv_spec. rewrite sumNR_swap.
  rewrite (sumNR_ext (shape kernel) _ (fun k => pix (get kernel k) * sumNR (shape array) (fun x => pix (get array x)))).
  - rewrite sumNR_scal_r. fold s. field. auto.
  - intros k Hkk. rewrite sumNR_scal. f_equal. unfold wrap_sample.
    set (d := subl k (kernel_centre (shape kernel))).
    assert (Hd : length d = length (shape array)).
    { assert (E := Forall2_len _ _ _ Hle). unfold d. apply inb_length in Hkk. rewrite subl_length. unfold kernel_centre. rewrite map_length. lia. }
    rewrite <- (sumNR_mod_shift (shape array) (fun x => pix (get array x)) (map Z.opp d)) by (auto; rewrite map_length; auto).
    apply sumNR_ext. intros x Hx. do 3 f_equal. apply inb_length in Hx. rewrite <- Hx in Hd. apply subl_addl_opp; auto.
Qed.
Print Assumptions C29_total_flux_conserved.

Example C29_nonvacuous : let k := mk1 3 (fun x => Fin (IZR x)) in sumNR (shape k) (fun i => pix (get k i)) <> 0 /\ no_larger (shape k) [5%Z].
Proof. cbv zeta. split; [cbv - [Rplus Rmult IZR]; lra|repeat constructor; lia]. Qed.

(** *** C30: interpolate_nan is a weighted average over the valid pixels *)
Definition validp (x : num) : R := match x with Fin _ => 1 | NaN => 0 end.
(** periodic / outside-counts-as-valid-fill weights *)
Definition wrap_valid (a : arr num) (p : list Z) : R := validp (get a (modl (shape a) p)).
Definition fill_valid (a : arr num) (p : list Z) : R := if inbb (shape a) p then validp (get a p) else 1.

(** the value the documentation prescribes for weighted sum t and weight w *)
Definition weighted_pixel (min_wt t w : R) (o : num) : Prop :=
  (w < min_wt -> o = NaN) /\
  (min_wt = 0 -> w = 0 -> o = Fin 0) /\
  (min_wt <= w -> 0 < w -> o = Fin (t / w)).

Lemma reweight_spec mw z w : weighted_pixel mw (Re z) w (reweight mw z w).
Proof.
  unfold weighted_pixel, reweight. destruct (Rlt_dec w mw).
  - repeat split; intros; auto; try lra.
  - destruct (Req_EM_T w 0).
    + destruct (Req_EM_T mw 0); repeat split; intros; auto; try lra; contradiction.
    + repeat split; intros; auto; try lra.
Qed.

Theorem C30_nan_interpolation_is_weighted_average :
  forall env (array kernel : arr num) b v fftshift fft_pad psf_pad min_wt use_np nthreads,
  pos_shape (shape array) -> pos_shape (shape kernel) -> shape array <> [] ->
  (b = BWrap /\ no_larger (shape kernel) (shape array) \/
   (b = BFill \/ b = BNone) /\ length (shape array) = length (shape kernel)) ->
  let s := sumNR (shape kernel) (fun k => pix (get kernel k)) in
  s <> 0 ->
  let sample := match b with BWrap => wrap_sample array | _ => fill_sample array v end in
  let valid := match b with BWrap => wrap_valid array | _ => fill_valid array end in
  exists out, convolvend env true true (of_num array) (of_num kernel) b (Fin v) true false fftshift fft_pad psf_pad
                true false min_wt NkTrue use_np nthreads = Ok (ConvReal out) /\
    shape out = shape array /\
    forall x, inb (shape array) x ->
      weighted_pixel min_wt (conv_spec kernel sample x / s) (Rmax 0 (conv_spec kernel valid x / s)) (get out x).
Proof.
  intros env array kernel b v fs fp pp mw unp nt Ha Hk Hne Hb s Hs sample valid.
  assert (Hl : length (shape array) = length (shape kernel)).
  { destruct Hb as [[_ H]|[_ H]]; auto. symmetry. exact (Forall2_len _ _ _ H). }
  assert (Hsh : shapes_ok (shape (of_num array)) (shape (of_num kernel))) by (repeat split; auto).
  assert (Hbe : b <> BExtend) by (destruct Hb as [[-> _]|[[-> | ->] _]]; discriminate).
  assert (Hok := convolvend_ok env (of_num array) (of_num kernel) b (Fin v) true fs fp pp true false mw NkTrue unp nt Hsh Hne Hbe).
  assert (Hnan : isnan (snd (pads b fp pp (Fin v))) = false) by (destruct b; reflexivity).
  assert (HsC : sumNC (shape (nan_zeroed (of_num kernel))) (get (nan_zeroed (of_num kernel))) = RtoC s) by apply norm_kernel_num.
  assert (Hkval : forall k, the_kernel NkTrue (nan_zeroed (of_num kernel)) k = RtoC (pix (get kernel k) * / s)).
  { intros k. cbn [the_kernel]. rewrite HsC, zeroed_num. unfold Cdiv. rewrite <- RtoC_inv, <- RtoC_mult by auto. reflexivity. }
  assert (Hks : sumNC (shape kernel) (the_kernel NkTrue (nan_zeroed (of_num kernel))) = RtoC 1).
  { rewrite (sumNC_ext _ _ (fun k => RtoC (pix (get kernel k) * / s))) by (intros; apply Hkval). rewrite sumNC_RtoC, sumNR_scal_r.
    fold s. rewrite Rinv_r by auto. reflexivity. }
  assert (Hn1 : norm_ok NkTrue (nan_zeroed (of_num kernel))) by (cbn [norm_ok]; rewrite HsC; apply RtoC_neq0; auto).
  specialize (Hok Hnan Hn1). change (shape (of_num kernel)) with (shape kernel) in Hok. change (shape (of_num array)) with (shape array) in Hok.
  rewrite Hks in Hok. specialize (Hok ltac:(intros; apply RtoC_neq0; lra)).
  destruct (pads b fp pp (Fin v)) as [[fpad ppad] w] eqn:Ep. cbv zeta in Hok. destruct Hok as [out [H1 [H2 H3]]].
  exists out. split; [exact H1|]. split; [exact H2|]. intros x Hx. rewrite H3 by (rewrite H2; exact Hx). cbn [orb andb is_normalized].
  set (N := newshape fpad ppad (shape array) (shape kernel)) in *.
  set (X := addl x (starts N (shape array))).
  assert (Hfa := Forall2_fits _ _ (newshape_ge_array fpad ppad _ _ Hsh)).
  change (shape (of_num kernel)) with (shape kernel) in Hfa. change (shape (of_num array)) with (shape array) in Hfa. fold N in Hfa.
  assert (Hlx := inb_length _ _ Hx).
  assert (Es : subl X (starts N (shape array)) = x).
  { assert (E1 : length x = length (starts N (shape array))).
    { destruct (fits_len _ _ _ Hfa). lia. }
    unfold X. clear - E1. revert E1. generalize (starts N (shape array)). induction x as [|a x IH]; intros [|t l] E; simpl in *; try discriminate; auto.
    unfold subl, addl in *. simpl. rewrite IH by lia. f_equal. lia. }
  rewrite Es, (proj2 (inbb_spec _ _) Hx).
  (* the generic padded sampling *)
  assert (Hsamp : forall (A : Type) (f : list Z -> A) (bg : A) (k : list Z), inb (shape kernel) k ->
     embed N (shape array) f bg (modl N (subl X (subl k (halfl (shape kernel))))) =
     match b with BWrap => f (modl (shape array) (subl x (subl k (halfl (shape kernel)))))
     | _ => if inbb (shape array) (subl x (subl k (halfl (shape kernel)))) then f (subl x (subl k (halfl (shape kernel)))) else bg end).
  { intros A f bg k Hkk. assert (Hlk := inb_length _ _ Hkk).
    assert (Hfill : (b = BFill \/ b = BNone) -> embed N (shape array) f bg (modl N (subl X (subl k (halfl (shape kernel))))) =
       if inbb (shape array) (subl x (subl k (halfl (shape kernel)))) then f (subl x (subl k (halfl (shape kernel)))) else bg).
    { intros Hbb. assert (Epp : ppad = true) by (destruct Hbb; subst b; simpl in Ep; congruence). unfold X. apply embed_pad; auto.
      unfold N. rewrite Epp. exact (newshape_psf fpad _ _ Hsh). }
    destruct Hb as [[-> Hle]|[[-> | ->] _]]; auto.
    simpl in Ep. injection Ep as <- <- <-.
    assert (EN : N = shape array) by (unfold N; apply newshape_wrap; exact Hle).
    unfold X. rewrite EN, starts_self, addl_zeros by auto. apply embed_self. apply modl_inb; auto.
    rewrite !subl_length. unfold halfl. rewrite map_length. lia. }
  assert (Hw : nan0 w = match b with BWrap => 0 | _ => v end) by (destruct Hb as [[-> Hle]|[[-> | ->] _]]; simpl in Ep; injection Ep as _ _ <-; reflexivity).
  replace (conv_spec kernel sample x / s) with (Re (conv_at N (shape array) (shape kernel) (get (nan_zeroed (of_num array))) (the_kernel NkTrue (nan_zeroed (of_num kernel))) (RtoC (nan0 w)) X)).
  2:{ unfold conv_at, conv_spec, Rdiv. rewrite <- sumNR_scal_r, Re_sumNC. apply sumNR_ext. intros k Hkk. rewrite Hkval, Hsamp by auto.
      rewrite Re_mult_R. unfold sample, wrap_sample, fill_sample, kernel_centre, halfl. rewrite Hw.
      destruct Hb as [[-> _]|[[-> | ->] _]]; [rewrite zeroed_num; simpl; ring| |];
      (destruct (inbb _ _); [rewrite zeroed_num|]; simpl; ring). }
  replace (conv_spec kernel valid x / s) with
    (Re (Cmult (sumNC (shape kernel) (fun k => Cmult (the_kernel NkTrue (nan_zeroed (of_num kernel)) k)
        (weights (shape array) N (of_num array) true false (modl N (subl X (subl k (halfl (shape kernel)))))))) (Cinv (RtoC 1)))).
  2:{ rewrite <- RtoC_inv by lra. rewrite Rinv_1, Cmult_1_r.
      unfold conv_spec, Rdiv. rewrite <- sumNR_scal_r, Re_sumNC. apply sumNR_ext. intros k Hkk. unfold weights. rewrite Hkval, Hsamp by auto.
      rewrite Re_mult_R. unfold valid, wrap_valid, fill_valid, kernel_centre, halfl. cbn [of_num amap get].
      assert (Ev : forall z : num, Re (if cisnan (z, Fin 0) && true then RtoC 0 else RtoC 1) = validp z) by (intros [r|]; reflexivity).
      destruct Hb as [[-> _]|[[-> | ->] _]]; [rewrite Ev; ring| |];
      (destruct (inbb _ _); [rewrite Ev|]; simpl; ring). }
  rewrite Hks. apply reweight_spec.
Qed.
Print Assumptions C30_nan_interpolation_is_weighted_average.

Example C30_nonvacuous : let a := mk1 4 (fun x => if (x =? 1)%Z then NaN else Fin (IZR x)) in let k := mk1 3 (fun _ => Fin 1) in
  sumNR (shape k) (fun i => pix (get k i)) <> 0 /\ no_larger (shape k) (shape a) /\
  conv_spec k (wrap_valid a) [0%Z] = 2 /\ conv_spec k (wrap_sample a) [0%Z] = 3.
Proof.
  cbv zeta. split; [cbv - [Rplus Rmult IZR]; lra|]. split; [repeat constructor; lia|].
  split; cbv - [Rplus Rmult IZR]; lra.
Qed.
