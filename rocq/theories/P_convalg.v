(** C97, C98: algebra and range of convolvend *)
From Coq Require Import ZArith Lia List Reals Lra Bool.
From Coquelicot Require Import Complex.
From Verif Require Import Base NDim DFT Kernel Py M_fast_ffts M_shift M_convolve Spec L_shift L_convolve P_convolve P_convolve2.
Import ListNotations.
Open Scope R_scope.

Lemma least_pow2_unique P Q l : least_pow2 P l -> least_pow2 Q l -> P = Q.
Proof.
  intros [[j [Hj Ej]] [F1 M1]] [[k [Hk Ek]] [F2 M2]]. subst. assert (A := M1 k Hk F2). assert (B := M2 j Hj F1). lia.
Qed.
Lemma padded_shape_unique b fp pp ash ksh N N' : padded_shape b fp pp ash ksh N -> padded_shape b fp pp ash ksh N' -> N = N'.
Proof.
  unfold padded_shape. set (base := if match b with BFill | BNone => true | BWrap => false | _ => pp end then zipw Z.add ash ksh else zipw Z.max ash ksh). clearbody base.
  destruct (match b with BWrap => false | _ => fp end).
  - intros [P [HP ->]] [Q [HQ ->]]. rewrite (least_pow2_unique P Q base); auto.
  - intros -> ->. reflexivity.
Qed.
Lemma conv_spec_lin k f g h a b x : (forall p, h p = a * f p + b * g p) -> conv_spec k h x = a * conv_spec k f x + b * conv_spec k g x.
Proof.
  intros H. unfold conv_spec. rewrite <- !sumNR_scal, <- sumNR_plus. apply sumNR_ext. intros i _. rewrite H. ring.
Qed.

(** *** C97: linear in the image: the values outside the image are combined like those inside; NaN counts as 0 *)
Theorem C97_linear_in_the_image :
  forall env (A B M kernel : arr num) b vA vB vM alpha beta crop fftshift fft_pad psf_pad min_wt nk nu use_np nthreads,
  pos_shape (shape A) -> pos_shape (shape kernel) -> length (shape A) = length (shape kernel) -> shape A <> [] -> shape B = shape A -> shape M = shape A ->
  b <> BExtend -> divided_by kernel nk nu -> nu <> 0 ->
  (forall x, inb (shape A) x -> pix (get M x) = alpha * pix (get A x) + beta * pix (get B x)) -> vM = alpha * vA + beta * vB ->
  let call := fun im v => convolvend env true true (of_num im) (of_num kernel) b (Fin v) crop false fftshift fft_pad psf_pad false false min_wt nk use_np nthreads in
  exists oA oB oM, call A vA = Ok (ConvReal oA) /\ call B vB = Ok (ConvReal oB) /\ call M vM = Ok (ConvReal oM) /\
    shape oA = shape oM /\ shape oB = shape oM /\
    forall x, inb (shape oM) x -> exists p q, get oA x = Fin p /\ get oB x = Fin q /\ get oM x = Fin (alpha * p + beta * q).
Proof.
  intros env A B M kernel b vA vB vM al be crop fs fp pp mw nk nu np nt HA Hk Hl Hne SB SM Hb Hd Hnu HM HvM call.
  destruct (C80_every_option env A kernel b vA crop fs fp pp false false mw nk nu np nt) as [N [oA [PA [EA [ShA VA]]]]]; auto.
  destruct (C80_every_option env B kernel b vB crop fs fp pp false false mw nk nu np nt) as [N2 [oB [PB [EB [ShB VB]]]]]; rewrite ?SB; auto.
  destruct (C80_every_option env M kernel b vM crop fs fp pp false false mw nk nu np nt) as [N3 [oM [PM [EM [ShM VM]]]]]; rewrite ?SM; auto.
  rewrite SB in PB, ShB. rewrite SM in PM, ShM. rewrite <- (padded_shape_unique _ _ _ _ _ _ _ PA PB) in *. rewrite <- (padded_shape_unique _ _ _ _ _ _ _ PA PM) in *.
  exists oA, oB, oM. split; [exact EA|]. split; [exact EB|]. split; [exact EM|]. split; [congruence|]. split; [congruence|].
  intros x Hx. destruct (VA x) as [VA' _]; [congruence|]. destruct (VB x) as [VB' _]; [congruence|]. destruct (VM x Hx) as [VM' _].
  cbv zeta in VA', VB', VM'. rewrite SB in VB'. rewrite SM in VM'.
  do 2 eexists. split; [apply VA'; auto|]. split; [apply VB'; auto|]. rewrite VM' by auto. f_equal.
  set (X := if crop then addl x (offset N (shape A)) else x). clearbody X.
  rewrite (conv_spec_lin kernel (padded N (shape A) (fun i => pix (get A i)) match b with BWrap => 0 | _ => vA end)
                                (padded N (shape A) (fun i => pix (get B i)) match b with BWrap => 0 | _ => vB end) _ al be).
  - field. exact Hnu.
  - intros p. unfold padded. destruct (inbb (shape A) (subl (modl N p) (offset N (shape A)))) eqn:E.
    + apply inbb_spec in E. apply HM. exact E.
    + destruct b; try (exact HvM). ring.
Qed.
Print Assumptions C97_linear_in_the_image.

(** wrap with a kernel that fits: the padded image is the periodic image *)
Lemma padded_self ash (f : list Z -> R) bg p : pos_shape ash -> length p = length ash -> padded ash ash f bg p = f (modl ash p).
Proof.
  intros Ha Hp. unfold padded. rewrite offset_starts, starts_self. rewrite subl_zeros by (rewrite modl_length; lia).
  destruct (inbb ash (modl ash p)) eqn:E; [reflexivity|]. assert (H := modl_inb ash p Ha Hp). apply inbb_spec in H. congruence.
Qed.
Lemma no_larger_len k a : no_larger k a -> length k = length a.
Proof. intros H. induction H; simpl; auto. Qed.
Lemma zipmax_self k a : no_larger k a -> zipw Z.max a k = a.
Proof. intros H. induction H; simpl; auto. rewrite IHForall2. f_equal. lia. Qed.
Lemma padded_shape_wrap fp pp ash ksh N : no_larger ksh ash -> padded_shape BWrap fp pp ash ksh N -> N = ash.
Proof. intros H P. unfold padded_shape in P. rewrite zipmax_self in P by auto. exact P. Qed.
Lemma centre_len k : length (kernel_centre k) = length k.  Proof. apply map_length. Qed.
Lemma conv_spec_periodic k ash f bg x : pos_shape ash -> length (shape k) = length ash -> length x = length ash ->
  conv_spec k (padded ash ash f bg) x = conv_spec k (fun p => f (modl ash p)) x.
Proof.
  intros Ha Hk Hx. unfold conv_spec. apply sumNR_ext. intros i Hi. apply inb_length in Hi.
  rewrite padded_self; auto. rewrite !subl_length, centre_len. lia.
Qed.
(** a roll of the sampled function rolls the convolution *)
Lemma conv_spec_roll k ash (f g : list Z -> R) d x : pos_shape ash -> length (shape k) = length ash -> length x = length ash -> length d = length ash ->
  (forall p, inb ash p -> g p = f (modl ash (subl p d))) ->
  conv_spec k (fun p => g (modl ash p)) x = conv_spec k (fun p => f (modl ash p)) (modl ash (subl x d)).
Proof.
  intros Ha Hk Hx Hd H. unfold conv_spec. apply sumNR_ext. intros i Hi. apply inb_length in Hi. f_equal.
  set (q := subl i (kernel_centre (shape k))). assert (Hq : length q = length ash) by (unfold q; rewrite subl_length, centre_len; lia).
  rewrite H by (apply modl_inb; auto; rewrite subl_length; lia). f_equal. clearbody q.
  clear H Hi i Hk k f g. revert x d q Hx Hd Hq. induction ash as [|n ash IH]; intros [|x xs] [|d ds] [|q qs]; simpl; try discriminate; auto.
  intros Hx Hd Hq. apply pos_shape_cons in Ha. destruct Ha as [Hn Ha]. unfold modl, subl in *. cbn [zipw]. f_equal.
  - rewrite Zminus_mod_idemp_l. rewrite Zminus_mod_idemp_l. f_equal. lia.
  - apply IH; auto.
Qed.

Lemma weighted_unique mw t w o o' : 0 <= mw -> 0 <= w -> weighted_pixel mw t w o -> weighted_pixel mw t w o' -> o = o'.
Proof.
  intros Hm Hw [A1 [A2 A3]] [B1 [B2 B3]]. destruct (Rlt_dec w mw) as [L|L]; [rewrite A1, B1; auto|].
  destruct (Req_dec w 0) as [Z|Z]; [rewrite A2, B2; auto; lra|]. rewrite A3, B3; auto; lra.
Qed.

(** *** C97: with boundary='wrap' rolling the image rolls the result, whatever the other options *)
Theorem C97_wrap_commutes_with_rolls :
  forall env (A A' kernel : arr num) d v crop fftshift fft_pad psf_pad interpolate_nan ignore_edge_zeros min_wt nk nu use_np nthreads,
  pos_shape (shape A) -> pos_shape (shape kernel) -> no_larger (shape kernel) (shape A) -> shape A <> [] -> shape A' = shape A -> length d = length (shape A) ->
  divided_by kernel nk nu -> nu <> 0 -> 0 <= min_wt ->
  (forall x, inb (shape A) x -> get A' x = get A (modl (shape A) (subl x d))) ->
  let call := fun im => convolvend env true true (of_num im) (of_num kernel) BWrap (Fin v) crop false fftshift fft_pad psf_pad interpolate_nan ignore_edge_zeros min_wt nk use_np nthreads in
  exists o o', call A = Ok (ConvReal o) /\ call A' = Ok (ConvReal o') /\ shape o = shape A /\ shape o' = shape A /\
    forall x, inb (shape A) x -> get o' x = get o (modl (shape A) (subl x d)).
Proof.
  intros env A A' kernel d v crop fs fp pp interp edge mw nk nu np nt HA Hk Hnl Hne SA Hld Hd Hnu Hmw HR call.
  assert (Hl := no_larger_len _ _ Hnl).
  destruct (C80_every_option env A kernel BWrap v crop fs fp pp interp edge mw nk nu np nt) as [N [o [PA [EA [ShA VA]]]]]; auto; try discriminate.
  destruct (C80_every_option env A' kernel BWrap v crop fs fp pp interp edge mw nk nu np nt) as [N2 [o' [PB [EB [ShB VB]]]]]; rewrite ?SA; auto; try discriminate.
  rewrite SA in PB, ShB. apply padded_shape_wrap in PA; auto. apply padded_shape_wrap in PB; auto. subst N N2.
  assert (So : shape o = shape A) by (rewrite ShA; destruct crop; auto). assert (So' : shape o' = shape A) by (rewrite ShB; destruct crop; auto).
  exists o, o'. split; [exact EA|]. split; [exact EB|]. split; [exact So|]. split; [exact So'|]. clear ShA ShB.
  intros x Hx. assert (Lx := inb_length _ _ Hx).
  set (y := modl (shape A) (subl x d)). assert (Hy : inb (shape A) y) by (apply modl_inb; auto; rewrite subl_length; lia). assert (Ly := inb_length _ _ Hy).
  specialize (VA y). rewrite So in VA. specialize (VA Hy). specialize (VB x). rewrite So' in VB. specialize (VB Hx). cbv zeta in VA, VB. rewrite SA in VB.
  rewrite !offset_starts, !starts_self in VA, VB. rewrite !(addl_zeros y (shape A)) in VA by lia. rewrite !(addl_zeros x (shape A)) in VB by lia.
  replace (if crop then y else y) with y in VA by (destruct crop; auto). replace (if crop then x else x) with x in VB by (destruct crop; auto).
  rewrite !(subl_zeros y (shape A)) in VA by lia. rewrite !(subl_zeros x (shape A)) in VB by lia. apply inbb_spec in Hx, Hy. rewrite Hx in VB. rewrite Hy in VA.
  rewrite !conv_spec_periodic in VA by (auto; lia). rewrite !conv_spec_periodic in VB by (auto; lia).
  rewrite (conv_spec_roll kernel (shape A) (fun i => pix (get A i)) (fun i => pix (get A' i)) d x) in VB; auto; try lia.
  2:{ intros p Hp. rewrite HR; auto. }
  rewrite (conv_spec_roll kernel (shape A) (valid_weight interp A) (valid_weight interp A') d x) in VB; auto; try lia.
  2:{ intros p Hp. unfold valid_weight. rewrite HR; auto. }
  fold y in VB. destruct VA as [A1 [A2 A3]]. destruct VB as [B1 [B2 B3]].
  set (s := sumNR (shape kernel) (fun k => pix (get kernel k))) in *.
  assert (DN : counts_as_normalised kernel nk \/ ~ counts_as_normalised kernel nk).
  { unfold counts_as_normalised. destruct nk; auto. destruct (Rlt_dec (Rabs (sumNR (shape kernel) (fun k => pix (get kernel k)) - 1)) (/ 10 ^ 8)); auto. }
  destruct DN as [DN|DN]; [|rewrite A1, B1 by auto; reflexivity].
  destruct (bool_dec interp false) as [I|I]; [destruct (bool_dec edge false) as [J|J]|]; [rewrite A1, B1 by auto; reflexivity| |].
  - apply not_false_is_true in J. destruct (Req_dec s 0) as [Z|Z]; [rewrite A3, B3 by auto; reflexivity|].
    eapply weighted_unique; [exact Hmw| |apply B2; auto|apply A2; auto]. apply Rmax_l.
  - apply not_false_is_true in I. destruct (Req_dec s 0) as [Z|Z]; [rewrite A3, B3 by auto; reflexivity|].
    eapply weighted_unique; [exact Hmw| |apply B2; auto|apply A2; auto]. apply Rmax_l.
Qed.
Print Assumptions C97_wrap_commutes_with_rolls.

(** *** C97: with boundary='wrap' the order of two smoothing steps does not matter *)
Theorem C97_wrap_order_does_not_matter :
  forall env (A k1 k2 : arr num) v fftshift fft_pad psf_pad min_wt n1 n2 u1 u2 use_np nthreads,
  pos_shape (shape A) -> pos_shape (shape k1) -> pos_shape (shape k2) -> no_larger (shape k1) (shape A) -> no_larger (shape k2) (shape A) -> shape A <> [] ->
  divided_by k1 n1 u1 -> u1 <> 0 -> divided_by k2 n2 u2 -> u2 <> 0 ->
  let call := fun im k nk => convolvend env true true (of_num im) (of_num k) BWrap (Fin v) true false fftshift fft_pad psf_pad false false min_wt nk use_np nthreads in
  exists o1 o2 o12 o21, call A k1 n1 = Ok (ConvReal o1) /\ call A k2 n2 = Ok (ConvReal o2) /\
    call o1 k2 n2 = Ok (ConvReal o12) /\ call o2 k1 n1 = Ok (ConvReal o21) /\ aeq o12 o21.
Proof.
  intros env A k1 k2 v fs fp pp mw n1 n2 u1 u2 np nt HA H1 H2 N1 N2 Hne D1 U1 D2 U2 call.
  assert (L1 := no_larger_len _ _ N1). assert (L2 := no_larger_len _ _ N2).
  assert (ONE : forall (im k : arr num) nk u, shape im = shape A -> pos_shape (shape k) -> no_larger (shape k) (shape A) -> divided_by k nk u -> u <> 0 ->
    exists o, call im k nk = Ok (ConvReal o) /\ shape o = shape A /\ forall x, inb (shape A) x -> get o x = Fin (conv_spec k (fun p => pix (get im (modl (shape A) p))) x / u)).
  { intros im k nk u Hs Hk HN HD HU. assert (Lk := no_larger_len _ _ HN).
    destruct (C80_every_option env im k BWrap v true fs fp pp false false mw nk u np nt) as [N [o [P [E [Sh V]]]]]; rewrite ?Hs; auto; try discriminate.
    rewrite Hs in P, Sh. apply padded_shape_wrap in P; auto. subst N. exists o. split; [exact E|]. split; [exact Sh|].
    intros x Hx. assert (Lx := inb_length _ _ Hx). rewrite Sh in V. destruct (V x Hx) as [V1 _]. cbv zeta in V1. rewrite V1 by auto. rewrite Hs.
    rewrite offset_starts, starts_self, addl_zeros by lia. rewrite conv_spec_periodic by (auto; lia). reflexivity. }
  destruct (ONE A k1 n1 u1 eq_refl H1 N1 D1 U1) as [o1 [E1 [S1 V1]]]. destruct (ONE A k2 n2 u2 eq_refl H2 N2 D2 U2) as [o2 [E2 [S2 V2]]].
  destruct (ONE o1 k2 n2 u2 S1 H2 N2 D2 U2) as [o12 [E12 [S12 V12]]]. destruct (ONE o2 k1 n1 u1 S2 H1 N1 D1 U1) as [o21 [E21 [S21 V21]]].
  exists o1, o2, o12, o21. do 4 (split; [assumption|]). split; [congruence|]. rewrite S12. intros x Hx. assert (Lx := inb_length _ _ Hx).
  rewrite V12, V21 by auto. f_equal.
  assert (IDX : forall q q' : list Z, length q = length (shape A) -> length q' = length (shape A) ->
     modl (shape A) (subl (modl (shape A) (subl x q)) q') = modl (shape A) (subl (modl (shape A) (subl x q')) q)).
  { clear - Lx. generalize dependent x. generalize (shape A). intros sh. induction sh as [|n sh IH]; intros [|x xs] Lx [|q qs] [|q' qs']; simpl; try discriminate; auto.
    intros Hq Hq'. unfold modl, subl in *. cbn [zipw]. f_equal; [|apply IH; auto].
    rewrite !Zminus_mod_idemp_l. f_equal. lia. }
  assert (PULL : forall (o : arr num) (k : arr num) g u, length (shape k) = length (shape A) -> (forall y, inb (shape A) y -> get o y = Fin (g y / u)) ->
     conv_spec k (fun p => pix (get o (modl (shape A) p))) x = conv_spec k (fun p => g (modl (shape A) p)) x / u).
  { intros o k g u Lk Hg. unfold conv_spec. unfold Rdiv. rewrite <- sumNR_scal_r. apply sumNR_ext. intros i Hi. apply inb_length in Hi.
    rewrite Hg by (apply modl_inb; auto; rewrite !subl_length, centre_len; lia). cbn [pix]. unfold Rdiv. ring. }
  rewrite (PULL o1 k2 _ u1 L2 V1), (PULL o2 k1 _ u2 L1 V2).
  assert (SW : conv_spec k2 (fun p => conv_spec k1 (fun p0 => pix (get A (modl (shape A) p0))) (modl (shape A) p)) x =
               conv_spec k1 (fun p => conv_spec k2 (fun p0 => pix (get A (modl (shape A) p0))) (modl (shape A) p)) x).
  { unfold conv_spec. 
    rewrite (sumNR_ext (shape k2) _ (fun k => sumNR (shape k1) (fun k0 => pix (get k2 k) * (pix (get k1 k0) * pix (get A (modl (shape A) (subl (modl (shape A) (subl x (subl k (kernel_centre (shape k2))))) (subl k0 (kernel_centre (shape k1)))))))))).
    2:{ intros i Hi. rewrite sumNR_scal. reflexivity. }
    rewrite sumNR_swap. apply sumNR_ext. intros i Hi. rewrite <- sumNR_scal. apply sumNR_ext. intros j Hj. apply inb_length in Hi, Hj.
    rewrite IDX by (rewrite subl_length, centre_len; lia). ring. }
  rewrite SW. field. auto.
Qed.
Print Assumptions C97_wrap_order_does_not_matter.

Example C97_nonvacuous : let A := mk1 4 (fun x => if (x =? 1)%Z then NaN else Fin (IZR x)) in let k := mk1 3 (fun x => Fin (IZR x)) in
  pos_shape (shape A) /\ no_larger (shape k) (shape A) /\ divided_by k NkTrue 3 /\ divided_by k NkFalse 1.
Proof.
  cbv zeta. split; [repeat constructor|]. split; [repeat constructor; lia|]. split; [|reflexivity]. cbv - [Rplus Rmult IZR]. lra.
Qed.

(** *** C98: smoothing with a non-negative normalised kernel stays within the range of the image *)
Lemma conv_spec_le k f c x w : (forall i, inb (shape k) i -> 0 <= pix (get k i)) -> (forall p, f p <= c * w p) -> conv_spec k f x <= c * conv_spec k w x.
Proof.
  intros Hk H. unfold conv_spec. rewrite <- sumNR_scal. apply sumNR_le. intros i Hi. 
  apply Rle_trans with (pix (get k i) * (c * w (subl x (subl i (kernel_centre (shape k)))))); [|right; ring]. apply Rmult_le_compat_l; auto.
Qed.
Lemma conv_spec_ge k f c x w : (forall i, inb (shape k) i -> 0 <= pix (get k i)) -> (forall p, c * w p <= f p) -> c * conv_spec k w x <= conv_spec k f x.
Proof.
  intros Hk H. unfold conv_spec. rewrite <- sumNR_scal. apply sumNR_le. intros i Hi. 
  apply Rle_trans with (pix (get k i) * (c * w (subl x (subl i (kernel_centre (shape k)))))); [right; ring|]. apply Rmult_le_compat_l; auto.
Qed.
Lemma conv_spec_one k x : conv_spec k (fun _ => 1) x = sumNR (shape k) (fun i => pix (get k i)).
Proof. unfold conv_spec. apply sumNR_ext. intros; ring. Qed.

Theorem C98_smoothing_stays_in_range :
  forall env (A kernel : arr num) b v lo hi crop fftshift fft_pad psf_pad min_wt use_np nthreads,
  pos_shape (shape A) -> pos_shape (shape kernel) -> length (shape A) = length (shape kernel) -> shape A <> [] -> b <> BExtend ->
  (forall k, inb (shape kernel) k -> 0 <= pix (get kernel k)) -> 0 < sumNR (shape kernel) (fun k => pix (get kernel k)) ->
  (* NaN pixels count as 0; outside the image the fill value (0 for 'wrap' when the kernel is larger than the image) *)
  (forall x, inb (shape A) x -> lo <= pix (get A x) <= hi) -> lo <= match b with BWrap => 0 | _ => v end <= hi ->
  exists o, convolvend env true true (of_num A) (of_num kernel) b (Fin v) crop false fftshift fft_pad psf_pad false false min_wt NkTrue use_np nthreads = Ok (ConvReal o) /\
    forall x, inb (shape o) x -> exists r, get o x = Fin r /\ lo <= r <= hi.
Proof.
  intros env A kernel b v lo hi crop fs fp pp mw np nt HA Hk Hl Hne Hb Hp Hs HR Hv.
  set (s := sumNR (shape kernel) (fun k => pix (get kernel k))) in *.
  destruct (C80_every_option env A kernel b v crop fs fp pp false false mw NkTrue s np nt) as [N [o [P [E [Sh V]]]]]; auto; [reflexivity|lra|].
  exists o. split; [exact E|]. intros x Hx. destruct (V x Hx) as [V1 _]. cbv zeta in V1. eexists. split; [apply V1; auto|].
  set (X := if crop then addl x (offset N (shape A)) else x). set (f := padded N (shape A) (fun i => pix (get A i)) match b with BWrap => 0 | _ => v end).
  assert (F : forall p, lo <= f p <= hi). { intros p. unfold f, padded. destruct (inbb (shape A) (subl (modl N p) (offset N (shape A)))) eqn:Q; [apply inbb_spec in Q; auto|exact Hv]. }
  assert (L := conv_spec_ge kernel f lo X (fun _ => 1) Hp ltac:(intros p; specialize (F p); lra)).
  assert (U := conv_spec_le kernel f hi X (fun _ => 1) Hp ltac:(intros p; specialize (F p); lra)).
  rewrite conv_spec_one in L, U. fold s in L, U. split; apply (Rmult_le_reg_r s); auto; unfold Rdiv; rewrite Rmult_assoc, Rinv_l by lra; lra.
Qed.
Print Assumptions C98_smoothing_stays_in_range.

(** the wrap case without the condition on 0: the kernel fits into the image *)
Theorem C98_wrap_stays_in_range :
  forall env (A kernel : arr num) v lo hi crop fftshift fft_pad psf_pad min_wt use_np nthreads,
  pos_shape (shape A) -> pos_shape (shape kernel) -> no_larger (shape kernel) (shape A) -> shape A <> [] ->
  (forall k, inb (shape kernel) k -> 0 <= pix (get kernel k)) -> 0 < sumNR (shape kernel) (fun k => pix (get kernel k)) ->
  (forall x, inb (shape A) x -> lo <= pix (get A x) <= hi) ->
  exists o, convolvend env true true (of_num A) (of_num kernel) BWrap (Fin v) crop false fftshift fft_pad psf_pad false false min_wt NkTrue use_np nthreads = Ok (ConvReal o) /\
    shape o = shape A /\ forall x, inb (shape A) x -> exists r, get o x = Fin r /\ lo <= r <= hi.
Proof.
  intros env A kernel v lo hi crop fs fp pp mw np nt HA Hk Hn Hne Hp Hs HR. assert (Hl := no_larger_len _ _ Hn).
  set (s := sumNR (shape kernel) (fun k => pix (get kernel k))) in *.
  destruct (C80_every_option env A kernel BWrap v crop fs fp pp false false mw NkTrue s np nt) as [N [o [P [E [Sh V]]]]]; auto; try discriminate; [reflexivity|lra|].
  apply padded_shape_wrap in P; auto. subst N. assert (So : shape o = shape A) by (rewrite Sh; destruct crop; auto).
  exists o. split; [exact E|]. split; [exact So|]. intros x Hx. rewrite So in V. destruct (V x Hx) as [V1 _]. cbv zeta in V1. eexists. split; [apply V1; auto|].
  assert (Lx := inb_length _ _ Hx).
  replace (if crop then addl x (offset (shape A) (shape A)) else x) with x by (destruct crop; [rewrite offset_starts, starts_self, addl_zeros by lia|]; reflexivity).
  rewrite conv_spec_periodic by (auto; lia). set (f := fun p => pix (get A (modl (shape A) p))).
  assert (L : lo * s <= conv_spec kernel f x).
  { unfold s, conv_spec. rewrite <- sumNR_scal. apply sumNR_le. intros i Hi. assert (Li := inb_length _ _ Hi). rewrite Rmult_comm. apply Rmult_le_compat_l; auto. apply HR. apply modl_inb; auto. rewrite !subl_length, centre_len. lia. }
  assert (U : conv_spec kernel f x <= hi * s).
  { unfold s, conv_spec. rewrite <- sumNR_scal. apply sumNR_le. intros i Hi. assert (Li := inb_length _ _ Hi). rewrite (Rmult_comm hi). apply Rmult_le_compat_l; auto. apply HR. apply modl_inb; auto. rewrite !subl_length, centre_len. lia. }
  split; apply (Rmult_le_reg_r s); auto; unfold Rdiv; rewrite Rmult_assoc, Rinv_l by lra; lra.
Qed.
Print Assumptions C98_wrap_stays_in_range.

(** NaN interpolation: every output pixel is NaN (weight below min_wt), 0 (no valid pixel under the kernel) or within the range
    of the valid pixels and, unless edges are ignored, the fill value *)
Theorem C98_nan_interpolation_stays_in_range :
  forall env (A kernel : arr num) b v lo hi fftshift fft_pad psf_pad (ignore_edge_zeros : bool) min_wt use_np nthreads,
  pos_shape (shape A) -> pos_shape (shape kernel) -> length (shape A) = length (shape kernel) -> shape A <> [] -> b <> BExtend ->
  (forall k, inb (shape kernel) k -> 0 <= pix (get kernel k)) -> 0 < sumNR (shape kernel) (fun k => pix (get kernel k)) -> 0 <= min_wt ->
  (forall x r, inb (shape A) x -> get A x = Fin r -> lo <= r <= hi) ->
  (b = BWrap /\ no_larger (shape kernel) (shape A) \/
   (if ignore_edge_zeros then match b with BWrap => True | _ => v = 0 end else lo <= match b with BWrap => 0 | _ => v end <= hi)) ->
  exists o, convolvend env true true (of_num A) (of_num kernel) b (Fin v) true false fftshift fft_pad psf_pad true ignore_edge_zeros min_wt NkTrue use_np nthreads = Ok (ConvReal o) /\
    shape o = shape A /\
    forall x, inb (shape A) x -> get o x = NaN \/ (min_wt = 0 /\ get o x = Fin 0) \/ exists r, get o x = Fin r /\ lo <= r <= hi.
Proof.
  intros env A kernel b v lo hi fs fp pp edge mw np nt HA Hk Hl Hne Hb Hp Hs Hm HR Hv.
  set (s := sumNR (shape kernel) (fun k => pix (get kernel k))) in *.
  destruct (C80_every_option env A kernel b v true fs fp pp true edge mw NkTrue s np nt) as [N [o [P [E [Sh V]]]]]; auto; [reflexivity|lra|].
  exists o. split; [exact E|]. split; [exact Sh|]. intros x Hx. rewrite Sh in V. destruct (V x Hx) as [_ [V1 _]]. cbv zeta in V1. fold s in V1.
  specialize (V1 (or_introl eq_refl) I (or_introl (Rgt_not_eq _ _ Hs))).
  set (X := addl x (offset N (shape A))) in *. set (bg := match b with BWrap => 0 | _ => v end) in *.
  set (f := padded N (shape A) (fun i => pix (get A i)) bg) in *. set (w := padded N (shape A) (valid_weight true A) (if edge then 0 else 1)) in *.
  assert (LX : length X = length (shape A) /\ length N = length (shape A)).
  { assert (LN : length N = length (shape A)).
    { unfold padded_shape in P. destruct (match b with BWrap => false | _ => fp end).
      - destruct P as [Q [_ ->]]. rewrite map_length. destruct (match b with BFill | BNone => true | BWrap => false | _ => pp end); rewrite zipw_length; lia.
      - subst N. destruct (match b with BFill | BNone => true | BWrap => false | _ => pp end); rewrite zipw_length; lia. }
    split; [|exact LN]. unfold X, offset. rewrite addl_length, zipw_length. apply inb_length in Hx. lia. }
  destruct LX as [LX LN].
  assert (FW : forall i, inb (shape kernel) i -> let p := subl X (subl i (kernel_centre (shape kernel))) in lo * w p <= f p <= hi * w p /\ 0 <= w p).
  { intros i Hi. cbv zeta. set (p := subl X _). apply inb_length in Hi.
    assert (PV : forall q, inb (shape A) q -> lo * valid_weight true A q <= pix (get A q) <= hi * valid_weight true A q /\ 0 <= valid_weight true A q).
    { intros q Hq. specialize (HR q). unfold valid_weight, validp. destruct (get A q); cbn [pix]; [specialize (HR _ Hq eq_refl)|]; lra. }
    destruct Hv as [[-> Hn]|Hv].
    - apply padded_shape_wrap in P; auto. subst N. unfold f, w. assert (Lp : length p = length (shape A)) by (unfold p; rewrite !subl_length, centre_len; lia).
      rewrite !padded_self by auto. apply PV. apply modl_inb; auto.
    - unfold f, w, padded. destruct (inbb (shape A) (subl (modl N p) (offset N (shape A)))) eqn:Q; [apply inbb_spec in Q; apply PV; auto|].
      fold bg in Hv. destruct edge; [assert (bg = 0) by (unfold bg; destruct b; auto); lra|lra]. }
  assert (L : lo * conv_spec kernel w X <= conv_spec kernel f X).
  { unfold conv_spec. rewrite <- sumNR_scal. apply sumNR_le. intros i Hi. specialize (FW i Hi). cbv zeta in FW. specialize (Hp i Hi). nra. }
  assert (U : conv_spec kernel f X <= hi * conv_spec kernel w X).
  { unfold conv_spec. rewrite <- sumNR_scal. apply sumNR_le. intros i Hi. specialize (FW i Hi). cbv zeta in FW. specialize (Hp i Hi). nra. }
  assert (W0 : 0 <= conv_spec kernel w X).
  { unfold conv_spec. apply sumNR_nonneg. intros i Hi. specialize (FW i Hi). cbv zeta in FW. specialize (Hp i Hi). apply Rmult_le_pos; lra. }
  assert (Hin : inbb (shape A) (subl X (offset N (shape A))) = true).
  { replace (subl X (offset N (shape A))) with x; [apply inbb_spec; exact Hx|]. unfold X. apply inb_length in Hx.
    assert (LO : length (offset N (shape A)) = length x) by (unfold offset; rewrite zipw_length; lia). clear - LO.
    revert LO. generalize (offset N (shape A)) as l. induction x as [|a x IH]; intros [|c l]; simpl; try discriminate; auto. intros H. unfold addl, subl in *. cbn [zipw]. f_equal; [lia|apply IH; lia]. }
  rewrite Hin in V1. set (wt := conv_spec kernel w X / s) in *. assert (Wt : 0 <= wt) by (unfold wt, Rdiv; apply Rmult_le_pos; [exact W0|left; apply Rinv_0_lt_compat; lra]).
  rewrite Rmax_right in V1 by exact Wt. destruct V1 as [A1 [A2 A3]].
  destruct (Rlt_dec wt mw) as [Q|Q]; [left; auto|]. right. destruct (Req_dec wt 0) as [Z|Z]; [left; split; [lra|apply A2; lra]|]. right.
  assert (Wp : 0 < wt) by lra.
  eexists. split; [apply A3; lra|]. assert (CW : conv_spec kernel w X = wt * s) by (unfold wt; field; lra). rewrite CW in L, U.
  assert (Hws : 0 < wt * s) by (apply Rmult_lt_0_compat; lra).
  replace (conv_spec kernel f X / s / wt) with (conv_spec kernel f X / (wt * s)) by (field; lra).
  split; apply (Rmult_le_reg_r (wt * s)); auto; unfold Rdiv; rewrite Rmult_assoc, Rinv_l by lra; lra.
Qed.
Print Assumptions C98_nan_interpolation_stays_in_range.

Example C98_nonvacuous : let A := mk1 4 (fun x => if (x =? 1)%Z then NaN else Fin (2 + IZR x)) in let k := mk1 3 (fun _ => Fin 1) in
  no_larger (shape k) (shape A) /\ (forall i, inb (shape k) i -> 0 <= pix (get k i)) /\ 0 < sumNR (shape k) (fun i => pix (get k i)) /\
  (forall x r, inb (shape A) x -> get A x = Fin r -> 2 <= r <= 5) /\ ~ (2 <= pix (get A [1%Z])).
Proof.
  cbv zeta. split; [repeat constructor; lia|]. split; [intros [|i [|]] H; try (simpl in H; tauto); simpl; lra|]. split; [cbv - [Rplus Rmult IZR Rlt]; lra|].
  split; [|simpl; lra]. intros [|x [|]] r H E; try (simpl in H; tauto). cbn [get mk1] in E. cbn [inb shape mk1] in H. destruct (x =? 1)%Z; [discriminate|]. injection E as <-.
  destruct H as [[H1 H2] _]. assert (x <= 3)%Z by lia. apply IZR_le in H1. apply IZR_le in H. lra.
Qed.
