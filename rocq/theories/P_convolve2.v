(** Properties C80, C81: convolvend with every combination of its options, and its Fourier-space output *)
From Coq Require Import ZArith Lia List Reals Lra Bool.
From Coquelicot Require Import Complex.
From Verif Require Import Base NDim DFT Kernel Py M_fast_ffts M_shift M_convolve Spec L_shift L_convolve P_convolve.
Import ListNotations.
Open Scope R_scope.

(** *** Specification *)
(** smallest power of two that is at least every entry *)
Definition least_pow2 (P : Z) (l : list Z) : Prop :=
  (exists j, (0 <= j)%Z /\ P = (2 ^ j)%Z) /\ Forall (fun m => (m <= P)%Z) l /\
  forall j, (0 <= j)%Z -> Forall (fun m => (m <= 2 ^ j)%Z) l -> (P <= 2 ^ j)%Z.
(** the shape of the padded image: array + kernel ('fill', None, or psf_pad with an unknown boundary), or the larger of the two;
    rounded up to a common power of two with fft_pad (never for 'wrap') *)
Definition padded_shape (b : boundary) (fft_pad psf_pad : bool) (ash ksh N : list Z) : Prop :=
  let enlarge := match b with BFill | BNone => true | BWrap => false | _ => psf_pad end in
  let base := if enlarge then zipw Z.add ash ksh else zipw Z.max ash ksh in
  if match b with BWrap => false | _ => fft_pad end
  then exists P, least_pow2 P base /\ N = map (fun _ => P) base
  else N = base.
(** the image sits in the middle of the padded image *)
Definition offset (N n : list Z) : list Z := zipw (fun M m => (M / 2 - m / 2)%Z) N n.
Definition padded {A} (N n : list Z) (f : list Z -> A) (bg : A) (p : list Z) : A :=
  let q := subl (modl N p) (offset N n) in if inbb n q then f q else bg.
(** what the kernel is divided by *)
Definition divided_by (kernel : arr num) (nk : normk) (nu : R) : Prop :=
  match nk with
  | NkFalse => nu = 1
  | NkTrue => nu = sumNR (shape kernel) (fun k => pix (get kernel k))
  | NkFun f => forall k', shape k' = shape kernel -> (forall i, get k' i = RtoC (pix (get kernel i))) -> f k' = RtoC nu
  end.
(** a kernel that was divided by something, or whose pixels add up to 1 within 1e-8 *)
Definition counts_as_normalised (kernel : arr num) (nk : normk) : Prop :=
  match nk with NkFalse => Rabs (sumNR (shape kernel) (fun k => pix (get kernel k)) - 1) < / 10 ^ 8 | _ => True end.
(** weight of a pixel: 0 if it is NaN and NaNs are interpolated *)
Definition valid_weight (interp : bool) (a : arr num) (i : list Z) : R :=
  if interp then validp (get a i) else 1.

Lemma offset_starts N n : offset N n = starts N n.
Proof.
  unfold offset, starts. revert n. induction N as [|M N IH]; intros [|m n]; simpl; auto. rewrite slice_start_eq, IH. reflexivity.
Qed.

Lemma log2_up_least m j : (0 < m)%Z -> (0 <= j)%Z -> (m <= 2 ^ j)%Z -> (2 ^ Z.log2_up m <= 2 ^ j)%Z.
Proof.
  intros Hm Hj H. apply Z.pow_le_mono_r; [lia|]. destruct (Z.eq_dec m 1) as [->|N1]; [change (Z.log2_up 1) with 0%Z; lia|].
  apply Z.log2_up_le_pow2; auto.
Qed.
Lemma maxl_le l v : (0 <= v)%Z -> Forall (fun m => (m <= v)%Z) l -> (maxl l <= v)%Z.
Proof. intros Hv H. induction H; simpl; lia. Qed.
Lemma least_pow2_ok l : Forall (fun m => (0 < m)%Z) l -> l <> [] -> least_pow2 (pow2ceil (maxl l)) l.
Proof.
  intros Hp Hne. assert (Hm : (0 < maxl l)%Z).
  { destruct l as [|a l]; [contradiction|]. inversion Hp; subst. simpl. lia. }
  assert (G := pow2ceil_ge _ Hm). unfold pow2ceil in *. destruct (Z.leb_spec (maxl l) 0); [lia|].
  split; [exists (Z.log2_up (maxl l)); split; [apply Z.log2_up_nonneg|reflexivity]|]. split.
  - apply Forall_forall. intros x Hx. apply maxl_ge in Hx. lia.
  - intros j Hj Hall. apply log2_up_least; auto. apply maxl_le; auto. apply Z.lt_le_incl, Z.pow_pos_nonneg; lia.
Qed.
Lemma maxl_app l m : maxl (l ++ m) = Z.max (maxl l) (maxl m).
Proof. induction l as [|a l IH]; simpl; [|rewrite IH; lia]. induction m; simpl; lia. Qed.
Lemma maxl_zipmax l m : length l = length m -> maxl (l ++ m) = maxl (zipw Z.max l m).
Proof.
  rewrite maxl_app. revert m. induction l as [|a l IH]; intros [|b m] H; simpl in *; try discriminate; auto.
  rewrite <- IH by lia. lia.
Qed.
Lemma zipw_pos_add l m : pos_shape l -> pos_shape m -> Forall (fun q => (0 < q)%Z) (zipw Z.add l m).
Proof.
  revert m. induction l as [|a l IH]; intros [|b m] H1 H2; simpl; auto. apply pos_shape_cons in H1, H2. constructor; [lia|]. apply IH; tauto.
Qed.
Lemma zipw_pos_max l m : pos_shape l -> pos_shape m -> Forall (fun q => (0 < q)%Z) (zipw Z.max l m).
Proof.
  revert m. induction l as [|a l IH]; intros [|b m] H1 H2; simpl; auto. apply pos_shape_cons in H1, H2. constructor; [lia|]. apply IH; tauto.
Qed.
Lemma map_const_len {A B D} (v : D) (l : list A) (m : list B) : length l = length m -> map (fun _ => v) l = map (fun _ => v) m.
Proof. revert m. induction l as [|a l IH]; intros [|b m] H; simpl in *; try discriminate; auto. f_equal. apply IH. lia. Qed.
Lemma zipw_len {A B D} (f : A -> B -> D) l m : length l = length m -> length (zipw f l m) = length l.
Proof. revert m. induction l as [|a l IH]; intros [|b m] H; simpl in *; try discriminate; auto. Qed.

Lemma newshape_padded b fp pp fill ash ksh : shapes_ok ash ksh -> ash <> [] -> b <> BExtend ->
  padded_shape b fp pp ash ksh (newshape (fst (fst (pads b fp pp fill))) (snd (fst (pads b fp pp fill))) ash ksh).
Proof.
  intros [Ha [Hk Hl]] Hne Hb.
  assert (G : forall f p : bool, (if f then exists P, least_pow2 P (if p then zipw Z.add ash ksh else zipw Z.max ash ksh) /\
       newshape f p ash ksh = map (fun _ => P) (if p then zipw Z.add ash ksh else zipw Z.max ash ksh)
       else newshape f p ash ksh = if p then zipw Z.add ash ksh else zipw Z.max ash ksh) ).
  { intros f p. unfold newshape. destruct f; [|destruct p; reflexivity].
    destruct p.
    - exists (pow2ceil (maxl (addl ash ksh))). split.
      + apply least_pow2_ok; [apply zipw_pos_add; auto|]. destruct ash, ksh; try discriminate; try contradiction.
      + apply map_const_len. symmetry. apply zipw_len. exact Hl.
    - rewrite maxl_zipmax by exact Hl. exists (pow2ceil (maxl (zipw Z.max ash ksh))). split.
      + apply least_pow2_ok; [apply zipw_pos_max; auto|]. destruct ash, ksh; try discriminate; try contradiction.
      + apply map_const_len. symmetry. apply zipw_len. exact Hl. }
  destruct b; try contradiction; unfold padded_shape; cbn [pads fst snd].
  - exact (G fp true).
  - exact (G fp true).
  - exact (G false false).
  - exact (G fp pp).
Qed.

Lemma divided_norm kernel nk nu : divided_by kernel nk nu -> nu <> 0 ->
  norm_ok nk (nan_zeroed (of_num kernel)) /\
  forall k, the_kernel nk (nan_zeroed (of_num kernel)) k = RtoC (pix (get kernel k) / nu).
Proof.
  intros H Hnu. destruct nk as [| |f]; cbn [divided_by norm_ok the_kernel] in *.
  - subst nu. split; auto. intros k. rewrite zeroed_num. f_equal. field.
  - rewrite norm_kernel_num, <- H. split; [apply RtoC_neq0; auto|]. intros k. rewrite zeroed_num.
    unfold Cdiv. rewrite <- RtoC_inv, <- RtoC_mult by auto. reflexivity.
  - rewrite (H (nan_zeroed (of_num kernel))); [|reflexivity|intros; apply zeroed_num].
    split; [apply RtoC_neq0; auto|]. intros k. rewrite zeroed_num.
    unfold Cdiv. rewrite <- RtoC_inv, <- RtoC_mult by auto. reflexivity.
Qed.

Lemma normalised_iff kernel nk : is_normalized nk (nan_zeroed (of_num kernel)) = true <-> counts_as_normalised kernel nk.
Proof.
  destruct nk; cbn [is_normalized counts_as_normalised]; try tauto.
  rewrite norm_kernel_num, <- RtoC_minus, Cmod_R. destruct (Rlt_dec _ _); split; intros; auto; try discriminate; contradiction.
Qed.

Section All.
Variables (env : bool) (array kernel : arr num) (b : boundary) (v : R) (fp pp : bool) (nk : normk) (nu : R).
Hypothesis Ha : pos_shape (shape array).
Hypothesis Hk : pos_shape (shape kernel).
Hypothesis Hl : length (shape array) = length (shape kernel).
Hypothesis Hne : shape array <> [].
Hypothesis Hb : b <> BExtend.
Hypothesis Hdiv : divided_by kernel nk nu.
Hypothesis Hnu : nu <> 0.
Let bg := match b with BWrap => 0 | _ => v end.
Let s := sumNR (shape kernel) (fun k => pix (get kernel k)).
Let fpad := fst (fst (pads b fp pp (Fin v))).
Let ppad := snd (fst (pads b fp pp (Fin v))).
Let N := newshape fpad ppad (shape array) (shape kernel).

Lemma N_ok : padded_shape b fp pp (shape array) (shape kernel) N.
Proof. apply newshape_padded; auto. repeat split; auto. Qed.

Lemma core_value (f : list Z -> R) (g : R) X :
  sumNC (shape kernel) (fun k => Cmult (the_kernel nk (nan_zeroed (of_num kernel)) k)
     (embed N (shape array) (fun i => RtoC (f i)) (RtoC g) (modl N (subl X (subl k (halfl (shape kernel))))))) =
  RtoC (conv_spec kernel (padded N (shape array) f g) X / nu).
Proof.
  destruct (divided_norm kernel nk nu Hdiv Hnu) as [_ Hkv].
  rewrite (sumNC_ext _ _ (fun k => RtoC (pix (get kernel k) * padded N (shape array) f g (subl X (subl k (halfl (shape kernel)))) * / nu))).
  - rewrite sumNC_RtoC, sumNR_scal_r. reflexivity.
  - intros k Hkk. rewrite Hkv. unfold embed, padded. rewrite offset_starts. destruct (inbb _ _); rewrite <- RtoC_mult; f_equal; unfold Rdiv; ring.
Qed.

Lemma core_conv X :
  conv_at N (shape array) (shape kernel) (get (nan_zeroed (of_num array))) (the_kernel nk (nan_zeroed (of_num kernel))) (RtoC bg) X =
  RtoC (conv_spec kernel (padded N (shape array) (fun i => pix (get array i)) bg) X / nu).
Proof.
  unfold conv_at. rewrite <- core_value. apply sumNC_ext. intros k Hkk. apply (f_equal (Cmult _)). apply embed_ext. intros; apply zeroed_num.
Qed.

Lemma core_ks : sumNC (shape kernel) (the_kernel nk (nan_zeroed (of_num kernel))) = RtoC (s / nu).
Proof.
  destruct (divided_norm kernel nk nu Hdiv Hnu) as [_ Hkv].
  rewrite (sumNC_ext _ _ (fun k => RtoC (pix (get kernel k) * / nu))) by (intros; apply Hkv). rewrite sumNC_RtoC, sumNR_scal_r. reflexivity.
Qed.

Lemma core_pads : pads b fp pp (Fin v) = (fpad, ppad, Fin bg).
Proof. unfold fpad, ppad, bg. destruct b; reflexivity. Qed.

Lemma core_weights interp edge X : weights (shape array) N (of_num array) interp edge X =
  embed N (shape array) (fun i => RtoC (valid_weight interp array i)) (RtoC (if edge then 0 else 1)) X.
Proof.
  unfold weights, embed. destruct (inbb _ _); [|destruct edge; reflexivity].
  unfold of_num, valid_weight; cbn [amap get]. destruct (get array _), interp; reflexivity.
Qed.

Lemma C80_main crop fs interp edge mw unp nt :
  exists out, convolvend env true true (of_num array) (of_num kernel) b (Fin v) crop false fs fp pp interp edge mw nk unp nt = Ok (ConvReal out) /\
    shape out = (if crop then shape array else N) /\
    forall x, inb (shape out) x ->
      let X := if crop then addl x (offset N (shape array)) else x in
      let inside := inbb (shape array) (subl X (offset N (shape array))) in
      let value := conv_spec kernel (padded N (shape array) (fun i => pix (get array i)) bg) X / nu in
      let outside_weight := if edge then 0 else 1 in
      let weight := if inside then Rmax 0 (conv_spec kernel (padded N (shape array) (valid_weight interp array) outside_weight) X / s)
                    else outside_weight in
      (interp = false /\ edge = false \/ ~ counts_as_normalised kernel nk -> get out x = Fin value) /\
      (interp = true \/ edge = true -> counts_as_normalised kernel nk -> s <> 0 \/ inside = false -> weighted_pixel mw value weight (get out x)) /\
      (interp = true \/ edge = true -> counts_as_normalised kernel nk -> s = 0 -> inside = true -> get out x = NaN).
Proof.
  destruct (divided_norm kernel nk nu Hdiv Hnu) as [Hno Hkv].
  assert (Hsh : shapes_ok (shape (of_num array)) (shape (of_num kernel))) by (repeat split; auto).
  assert (Hv : isnan (snd (pads b fp pp (Fin v))) = false) by (destruct b; reflexivity).
  assert (Hok := convolvend_ok_gen env (of_num array) (of_num kernel) b (Fin v) crop fs fp pp interp edge mw nk unp nt Hsh Hne Hb Hv Hno).
  rewrite core_pads in Hok. cbv zeta in Hok. change (shape (of_num kernel)) with (shape kernel) in Hok. change (shape (of_num array)) with (shape array) in Hok.
  fold N in Hok. destruct Hok as [out [H1 [H2 H3]]]. exists out. split; [exact H1|]. split; [exact H2|].
  intros x Hx. specialize (H3 x Hx). cbn [nan0] in H3. rewrite core_ks in H3. rewrite !offset_starts.
  set (X := if crop then addl x (starts N (shape array)) else x) in *. cbv zeta.
  rewrite core_conv in H3.
  set (value := conv_spec kernel (padded N (shape array) (fun i => pix (get array i)) bg) X / nu) in *.
  cbn [Re fst RtoC] in H3. fold s.
  assert (Hn := normalised_iff kernel nk).
  assert (Ew : s <> 0 -> Re (Cmult (sumNC (shape kernel) (fun k => Cmult (the_kernel nk (nan_zeroed (of_num kernel)) k)
        (weights (shape array) N (of_num array) interp edge (modl N (subl X (subl k (halfl (shape kernel)))))))) (Cinv (RtoC (s / nu)))) =
      conv_spec kernel (padded N (shape array) (valid_weight interp array) (if edge then 0 else 1)) X / s).
  { intros Hs. rewrite (sumNC_ext _ _ (fun k => Cmult (the_kernel nk (nan_zeroed (of_num kernel)) k)
        (embed N (shape array) (fun i => RtoC (valid_weight interp array i)) (RtoC (if edge then 0 else 1))
           (modl N (subl X (subl k (halfl (shape kernel)))))))) by (intros; rewrite core_weights; reflexivity).
    rewrite core_value. assert (s / nu <> 0) by (apply Rmult_integral_contrapositive; split; auto; apply Rinv_neq_0_compat; auto).
    rewrite <- RtoC_inv, <- RtoC_mult by auto. cbn [Re fst RtoC]. field. auto. }
  split; [|split].
  - intros [[-> ->]|Hnn]; [exact H3|]. destruct (is_normalized nk (nan_zeroed (of_num kernel))); [exfalso; tauto|].
    rewrite andb_false_r in H3. exact H3.
  - intros Hie Hnorm Hcase. apply Hn in Hnorm. rewrite Hnorm in H3.
    assert (Eie : interp || edge = true) by (destruct Hie; subst; auto using orb_true_r). rewrite Eie in H3. cbn [andb] in H3.
    destruct (inbb (shape array) (subl X (starts N (shape array)))) eqn:Ein.
    + destruct Hcase as [Hs|Hs]; [|discriminate]. rewrite Ceqb_false in H3.
      2:{ apply RtoC_neq0. apply Rmult_integral_contrapositive; split; auto; apply Rinv_neq_0_compat; auto. }
      cbn [andb] in H3. rewrite Ew in H3 by auto. rewrite H3. apply (reweight_spec mw (RtoC value)).
    + rewrite andb_false_r in H3. rewrite core_weights in H3. unfold embed in H3. rewrite Ein in H3. cbn [Re fst RtoC] in H3.
      replace (Rmax 0 (if edge then 0 else 1)) with (if edge then 0 else 1) in H3.
      * rewrite H3. apply (reweight_spec mw (RtoC value)).
      * destruct edge; unfold Rmax; destruct (Rle_dec _ _); lra.
  - intros Hie Hnorm Hs Hin. apply Hn in Hnorm. rewrite Hnorm in H3.
    assert (Eie : interp || edge = true) by (destruct Hie; subst; auto using orb_true_r). rewrite Eie in H3. cbn [andb] in H3.
    rewrite Hin in H3. rewrite Hs in H3. replace (0 / nu) with 0 in H3 by (field; auto).
    rewrite (proj2 (Ceqb_spec _ _) eq_refl) in H3. exact H3.
Qed.

(** the Fourier-space result *)
Lemma C81_main interp edge mw unp nt :
  exists F, shape F = N /\
    (forall X, inb N X -> idft N (get F) X = RtoC (conv_spec kernel (padded N (shape array) (fun i => pix (get array i)) bg) X / nu)) /\
    forall crop fs, convolvend env true true (of_num array) (of_num kernel) b (Fin v) crop true fs fp pp interp edge mw nk unp nt =
      Ok (ConvFFT (if fs then (if crop then crop_to N (shape array) (fftshiftN N (get F)) else Arr N (fftshiftN N (get F))) else F)).
Proof.
  destruct (divided_norm kernel nk nu Hdiv Hnu) as [Hno Hkv].
  assert (Hsh : shapes_ok (shape array) (shape kernel)) by (repeat split; auto).
  destruct (newshape_pos fpad ppad _ _ Hsh) as [HpN HlN]. fold N in HpN, HlN.
  assert (Hfk := Forall2_fits _ _ (newshape_ge_kernel fpad ppad _ _ Hsh)). fold N in Hfk.
  assert (Hfwd := get_ffts_fwd env nt unp).
  destruct (get_ffts env nt unp) as [fftn ifftn] eqn:EF. cbn [fst snd] in Hfwd.
  set (k0 := nan_zeroed (of_num kernel)) in *.
  exists (Arr N (fun k => Cmult (get (fftn (Arr N (embed N (shape array) (get (nan_zeroed (of_num array))) (RtoC bg)))) k)
     (get (fftn (Arr N (ifftshiftN N (embed N (shape kernel) (the_kernel nk k0) (RtoC 0))))) k))).
  split; [reflexivity|]. split.
  { intros X HX. rewrite <- core_conv. unfold conv_at. rewrite <- conv_core by auto.
    apply idft_ext. intros k Hkk. cbn [get]. rewrite !(proj2 (Hfwd _)). reflexivity. }
  intros crop fs.
  unfold convolvend. cbn [negb].
  replace (Nat.eqb (ndim (of_num array)) (ndim (of_num kernel))) with true by (symmetry; apply Nat.eqb_eq; exact Hl). cbn [negb].
  rewrite EF. fold k0.
  assert (Hkern : (match nk with
     | NkFalse => (Some k0, if Rlt_dec (Cmod (Cminus (sumNC (shape k0) (get k0)) (RtoC 1))) (/ 10 ^ 8) then true else false)
     | NkTrue => (if Ceqb (sumNC (shape k0) (get k0)) (RtoC 0) then None else Some (amap (fun z => Cdiv z (sumNC (shape k0) (get k0))) k0), true)
     | NkFun f => (if Ceqb (f k0) (RtoC 0) then None else Some (amap (fun z => Cdiv z (f k0)) k0), true)
     end) = (Some (Arr (shape kernel) (the_kernel nk k0)), is_normalized nk k0)).
  { clear Hkv Hdiv. destruct nk; simpl in *; auto; rewrite Ceqb_false by auto; reflexivity. }
  rewrite Hkern. clear Hkern.
  assert (Hpads : (match b with
    | BNone | BFill => Ok (fp, true, Fin v) | BWrap => Ok (false, false, Fin 0)
    | BExtend => Raise NotImplementedError | BOther => Ok (fp, pp, Fin v) end) = Ok (fpad, ppad, Fin bg)).
  { rewrite <- core_pads. destruct b; try reflexivity. contradiction. }
  rewrite Hpads. clear Hpads. cbn [bind].
  change (shape (of_num array)) with (shape array). change (shape (of_num kernel)) with (shape kernel).
  replace (fpad && Nat.eqb (length (shape array)) 0) with false by (destruct fpad, (shape array); auto; contradiction).
  fold N. rewrite check_fft_ok by auto. reflexivity.
Qed.
End All.

(** Every combination of boundary, padding, NaN interpolation, edge handling, kernel normalisation and cropping. *)
Theorem C80_every_option :
  forall env (array kernel : arr num) b v crop fftshift fft_pad psf_pad interpolate_nan ignore_edge_zeros min_wt nk nu use_np nthreads,
  pos_shape (shape array) -> pos_shape (shape kernel) -> length (shape array) = length (shape kernel) -> shape array <> [] ->
  b <> BExtend -> divided_by kernel nk nu -> nu <> 0 ->
  let s := sumNR (shape kernel) (fun k => pix (get kernel k)) in
  let bg := match b with BWrap => 0 | _ => v end in
  exists N out, padded_shape b fft_pad psf_pad (shape array) (shape kernel) N /\
    convolvend env true true (of_num array) (of_num kernel) b (Fin v) crop false fftshift fft_pad psf_pad
               interpolate_nan ignore_edge_zeros min_wt nk use_np nthreads = Ok (ConvReal out) /\
    shape out = (if crop then shape array else N) /\
    forall x, inb (shape out) x ->
      let X := if crop then addl x (offset N (shape array)) else x in
      let inside := inbb (shape array) (subl X (offset N (shape array))) in
      let value := conv_spec kernel (padded N (shape array) (fun i => pix (get array i)) bg) X / nu in
      let outside_weight := if ignore_edge_zeros then 0 else 1 in
      let weight := if inside then Rmax 0 (conv_spec kernel (padded N (shape array) (valid_weight interpolate_nan array) outside_weight) X / s)
                    else outside_weight in
      (interpolate_nan = false /\ ignore_edge_zeros = false \/ ~ counts_as_normalised kernel nk -> get out x = Fin value) /\
      (interpolate_nan = true \/ ignore_edge_zeros = true -> counts_as_normalised kernel nk -> s <> 0 \/ inside = false ->
         weighted_pixel min_wt value weight (get out x)) /\
      (interpolate_nan = true \/ ignore_edge_zeros = true -> counts_as_normalised kernel nk -> s = 0 -> inside = true -> get out x = NaN).
Proof.
  intros env array kernel b v crop fs fp pp interp edge mw nk nu unp nt Ha Hk Hl Hne Hb Hdiv Hnu s bg.
  destruct (C80_main env array kernel b v fp pp nk nu Ha Hk Hl Hne Hb Hdiv Hnu crop fs interp edge mw unp nt) as [out [H1 [H2 H3]]].
  eexists. exists out. split; [apply (N_ok array kernel b v fp pp); auto|]. split; [exact H1|]. split; [exact H2|exact H3].
Qed.
Print Assumptions C80_every_option.

(** When cropped with 'fill' or None, no wrap-around reaches the image: the padded, periodic samples are the image extended by the constant. *)
Theorem C80_padding_is_wide_enough :
  forall b fft_pad psf_pad (a : arr num) ksh N (f : list Z -> R) bg x k,
  pos_shape (shape a) -> pos_shape ksh -> length (shape a) = length ksh -> b = BFill \/ b = BNone ->
  padded_shape b fft_pad psf_pad (shape a) ksh N ->
  inb (shape a) x -> inb ksh k ->
  padded N (shape a) f bg (subl (addl x (offset N (shape a))) (subl k (kernel_centre ksh))) =
  let p := subl x (subl k (kernel_centre ksh)) in if inbb (shape a) p then f p else bg.
Proof.
  intros b fp pp a ksh N f bg x k Ha Hk Hl Hb HN Hx Hkk. unfold padded. rewrite offset_starts. cbv zeta.
  assert (HF : Forall2 (fun s m => (s <= m)%Z) (addl (shape a) ksh) N).
  { assert (HN' : if fp then exists P, least_pow2 P (zipw Z.add (shape a) ksh) /\ N = map (fun _ => P) (zipw Z.add (shape a) ksh)
                  else N = zipw Z.add (shape a) ksh) by (destruct Hb; subst b; exact HN).
    clear HN. unfold addl. destruct fp.
    - destruct HN' as [P [[_ [HP _]] ->]]. clear - HP. induction HP; simpl; constructor; auto.
    - subst N. clear. induction (zipw Z.add (shape a) ksh); constructor; auto; lia. }
  exact (embed_pad N (shape a) ksh f bg x k HF Hx Hkk Hl).
Qed.
Print Assumptions C80_padding_is_wide_enough.

(** The remaining exits: a kernel that cannot be normalised, a NaN fill value next to the image, missing numpy features. *)
Theorem C80_other_failures :
  forall env (array kernel : arr num) b fill crop rf fftshift fft_pad psf_pad ia ie min_wt use_np nthreads,
  pos_shape (shape array) -> pos_shape (shape kernel) -> length (shape array) = length (shape kernel) -> shape array <> [] -> b <> BExtend ->
  (sumNR (shape kernel) (fun k => pix (get kernel k)) = 0 ->
     convolvend env true true (of_num array) (of_num kernel) b fill crop rf fftshift fft_pad psf_pad ia ie min_wt NkTrue use_np nthreads = Raise ValueError) /\
  (forall nk, b = BFill \/ b = BNone -> fill = NaN ->
     convolvend env true true (of_num array) (of_num kernel) b fill crop rf fftshift fft_pad psf_pad ia ie min_wt nk use_np nthreads = Raise ValueError) /\
  (forall nk lio, convolvend env false lio (of_num array) (of_num kernel) b fill crop rf fftshift fft_pad psf_pad ia ie min_wt nk use_np nthreads = Raise AttributeError) /\
  (forall nk, convolvend env true false (of_num array) (of_num kernel) b fill crop rf fftshift fft_pad psf_pad ia ie min_wt nk use_np nthreads = Raise IndexError).
Proof.
  intros env array kernel b fill crop rf fs fp pp ia ie mw unp nt Ha Hk Hl Hne Hb.
  assert (Hsh : shapes_ok (shape array) (shape kernel)) by (repeat split; auto).
  assert (Hpads : (match b with
    | BNone | BFill => Ok (fp, true, fill) | BWrap => Ok (false, false, Fin 0)
    | BExtend => Raise NotImplementedError | BOther => Ok (fp, pp, fill) end) = Ok (pads b fp pp fill)).
  { destruct b; try reflexivity. contradiction. }
  assert (Hz : forall f : bool, f && Nat.eqb (length (shape array)) 0 = false) by (intros []; auto; destruct (shape array); auto; contradiction).
  assert (Hnd : Nat.eqb (ndim (of_num array)) (ndim (of_num kernel)) = true) by (apply Nat.eqb_eq; exact Hl).
  split; [|split; [|split]].
  - intros Hs. unfold convolvend. rewrite Hnd. cbn [negb]. destruct (get_ffts env nt unp) as [fftn ifftn].
    rewrite norm_kernel_num, Hs, (proj2 (Ceqb_spec _ _) eq_refl), Hpads. cbn [bind].
    destruct (pads b fp pp fill) as [[fpad ppad] w]. rewrite Hz.
    rewrite check_fft_ok by (apply (newshape_pos fpad ppad _ _ Hsh)). reflexivity.
  - intros nk Hbb ->. unfold convolvend. rewrite Hnd. cbn [negb]. destruct (get_ffts env nt unp) as [fftn ifftn].
    destruct (match nk with NkFalse => _ | _ => _ end) as [kern normalized]. rewrite Hpads. cbn [bind].
    assert (Ep : pads b fp pp NaN = (fp, true, NaN)) by (destruct Hbb; subst b; reflexivity). rewrite Ep, Hz.
    set (N := newshape fp true (shape (of_num array)) (shape (of_num kernel))).
    destruct (newshape_pos fp true _ _ Hsh) as [HpN HlN].
    rewrite check_fft_ok by exact HpN. cbn [bind]. destruct kern as [kern|]; auto.
    replace (existsN N _) with true; [reflexivity|]. symmetry. apply existsN_spec.
    change (shape (of_num array)) with (shape array) in *. change (shape (of_num kernel)) with (shape kernel) in *.
    assert (HF := newshape_psf fp _ _ Hsh). fold N in HF, HpN, HlN.
    (* the last pixel along the first axis is padding *)
    destruct (shape array) as [|a0 ash] eqn:Ea; [contradiction|]. destruct (shape kernel) as [|k0 ksh] eqn:Ek; [discriminate|].
    destruct N as [|M N']; [discriminate|]. cbn [length] in HlN. unfold addl in HF. cbn [zipw] in HF. inversion HF as [|? ? ? ? HM HF' E1 E2]; subst.
    apply pos_shape_cons in Ha, Hk, HpN. destruct (Z.eq_dec (slice_start M a0) 0) as [E0|E0].
    + exists ((M - 1)%Z :: zerosl N'). split.
      * split; [lia|]. apply inb_zeros. apply HpN.
      * unfold starts, subl. cbn [zipw inbb]. rewrite E0. destruct (Z.ltb_spec (M - 1 - 0) a0); [lia|]. rewrite andb_false_r. reflexivity.
    + exists (0%Z :: zerosl N'). split.
      * split; [lia|]. apply inb_zeros. apply HpN.
      * unfold starts, subl. cbn [zipw inbb]. assert (G := slice_start_fits M a0 ltac:(lia)).
        destruct (Z.leb_spec 0 (0 - slice_start M a0)); [lia|]. reflexivity.
  - reflexivity.
  - intros nk. unfold convolvend. rewrite Hnd. cbn [negb]. destruct (get_ffts env nt unp) as [fftn ifftn].
    destruct (match nk with NkFalse => _ | _ => _ end) as [kern normalized]. rewrite Hpads. cbn [bind].
    destruct (pads b fp pp fill) as [[fpad ppad] w]. rewrite Hz. reflexivity.
Qed.
Print Assumptions C80_other_failures.

(** edge weights: the image [1,1,1,1] smoothed by [1,1,1]/3 with fill 0 keeps the value 1 at the ends when edge zeros are ignored *)
Example C80_nonvacuous : let a := mk1 4 (fun _ => Fin 1) in let k := mk1 3 (fun _ => Fin 1) in
  divided_by k NkTrue 3 /\ counts_as_normalised k NkTrue /\ padded_shape BFill false false (shape a) (shape k) [7%Z] /\
  padded_shape BFill true false (shape a) (shape k) [8%Z] /\
  conv_spec k (padded [7%Z] [4%Z] (fun i => pix (get a i)) 0) [1%Z] = 2 /\
  conv_spec k (padded [7%Z] [4%Z] (valid_weight true a) 0) [1%Z] = 2.
Proof.
  cbv zeta. split; [cbv - [Rplus Rmult IZR]; lra|]. split; [exact I|]. split; [reflexivity|]. split.
  { exists 8%Z. split; [|reflexivity]. split; [exists 3%Z; split; [lia|reflexivity]|]. split; [repeat constructor; lia|].
    intros j Hj H. inversion H; subst. cbn in H2. destruct (Z_le_gt_dec 3 j) as [Q|Q].
    - change 8%Z with (2 ^ 3)%Z. apply Z.pow_le_mono_r; lia.
    - exfalso. assert (2 ^ j <= 2 ^ 2)%Z by (apply Z.pow_le_mono_r; lia). lia. }
  split; cbv - [Rplus Rmult IZR]; lra.
Qed.

(** *** C81: return_fft *)
(** With return_fft the inverse transform of what is returned (uncropped, unshifted) is the padded convolution, real and un-reweighted;
    fftshift centres the zero frequency, and only then does crop cut out the middle. *)
Theorem C81_return_fft :
  forall env (array kernel : arr num) b v fft_pad psf_pad interpolate_nan ignore_edge_zeros min_wt nk nu use_np nthreads,
  pos_shape (shape array) -> pos_shape (shape kernel) -> length (shape array) = length (shape kernel) -> shape array <> [] ->
  b <> BExtend -> divided_by kernel nk nu -> nu <> 0 ->
  let bg := match b with BWrap => 0 | _ => v end in
  let call := fun crop fftshift => convolvend env true true (of_num array) (of_num kernel) b (Fin v) crop true fftshift fft_pad psf_pad
               interpolate_nan ignore_edge_zeros min_wt nk use_np nthreads in
  exists N F, padded_shape b fft_pad psf_pad (shape array) (shape kernel) N /\ shape F = N /\
    (forall X, inb N X -> idft N (get F) X = RtoC (conv_spec kernel (padded N (shape array) (fun i => pix (get array i)) bg) X / nu)) /\
    (forall crop, call crop false = Ok (ConvFFT F)) /\
    (exists G, call false true = Ok (ConvFFT G) /\ shape G = N /\
       forall i, inb N i -> get G i = get F (modl N (subl i (map (fun n => (n / 2)%Z) N)))) /\
    (exists G, call true true = Ok (ConvFFT G) /\ shape G = shape array /\
       forall i, inb (shape array) i -> get G i = get F (modl N (subl (addl i (offset N (shape array))) (map (fun n => (n / 2)%Z) N)))).
Proof.
  intros env array kernel b v fp pp interp edge mw nk nu unp nt Ha Hk Hl Hne Hb Hdiv Hnu bg call.
  destruct (newshape_pos (fst (fst (pads b fp pp (Fin v)))) (snd (fst (pads b fp pp (Fin v)))) (shape array) (shape kernel)) as [HpN HlN]; [repeat split; auto|].
  assert (HN := N_ok array kernel b v fp pp Ha Hk Hl Hne Hb).
  set (N := newshape _ _ _ _) in HN, HpN, HlN.
  destruct (C81_main env array kernel b v fp pp nk nu Ha Hk Hl Hne Hb Hdiv Hnu interp edge mw unp nt) as [F [F1 [F2 F3]]].
  fold N in F1, F2, F3. exists N, F. split; [exact HN|]. split; [exact F1|]. split; [exact F2|].
  unfold call. split; [|split].
  - intros crop. rewrite F3. reflexivity.
  - eexists. rewrite F3. split; [reflexivity|]. split; reflexivity.
  - eexists. rewrite F3. split; [reflexivity|]. split; [reflexivity|]. intros i Hi. rewrite offset_starts. reflexivity.
Qed.
Print Assumptions C81_return_fft.

(** so the real image can be recovered from the uncropped, unshifted transform *)
Theorem C81_inverse_is_convolution :
  forall env (array kernel : arr num) b v fft_pad psf_pad min_wt nk nu use_np nthreads,
  pos_shape (shape array) -> pos_shape (shape kernel) -> length (shape array) = length (shape kernel) -> shape array <> [] ->
  b <> BExtend -> divided_by kernel nk nu -> nu <> 0 ->
  exists F out,
    convolvend env true true (of_num array) (of_num kernel) b (Fin v) false true false fft_pad psf_pad false false min_wt nk use_np nthreads = Ok (ConvFFT F) /\
    convolvend env true true (of_num array) (of_num kernel) b (Fin v) false false false fft_pad psf_pad false false min_wt nk use_np nthreads = Ok (ConvReal out) /\
    shape F = shape out /\ forall x, inb (shape out) x -> get out x = Fin (Re (idft (shape out) (get F) x)) /\ Im (idft (shape out) (get F) x) = 0.
Proof.
  intros env array kernel b v fp pp mw nk nu unp nt Ha Hk Hl Hne Hb Hdiv Hnu.
  destruct (C81_main env array kernel b v fp pp nk nu Ha Hk Hl Hne Hb Hdiv Hnu false false mw unp nt) as [F [F1 [F2 F3]]].
  destruct (C80_main env array kernel b v fp pp nk nu Ha Hk Hl Hne Hb Hdiv Hnu false false false false mw unp nt) as [out [H1 [H2 H3]]].
  exists F, out. split; [rewrite F3; reflexivity|]. split; [exact H1|]. split; [congruence|].
  intros x Hx. destruct (H3 x Hx) as [E _]. rewrite E by auto. rewrite H2 in Hx |- *. rewrite F2 by exact Hx. split; reflexivity.
Qed.
Print Assumptions C81_inverse_is_convolution.

Example C81_nonvacuous : let a := mk2 3 5 (fun y x => if (x =? 1)%Z then NaN else Fin (IZR (x - y))) in let k := mk2 2 2 (fun y x => Fin (IZR (1 + y + x))) in
  divided_by k (NkFun (fun k' => get k' [1%Z; 1%Z])) 3 /\ padded_shape BWrap true true (shape a) (shape k) [3; 5]%Z.
Proof.
  cbv zeta. split; [|reflexivity]. intros k' _ H. rewrite H. reflexivity.
Qed.
