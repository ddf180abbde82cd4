(** C90: moving both images together changes nothing *)
From Coq Require Import ZArith Lia List Reals Lra Bool FunctionalExtensionality.
From Coquelicot Require Import Complex.
From Verif Require Import Base NDim DFT Kernel Num Py M_fast_ffts M_shift M_scale M_zoom M_upsample M_downsample M_convolve M_correlate Arg M_chi2 M_xcorr M_register
  Spec L_shift L_scale L_upsample L_convolve Sum2 Spec2 Spec3 Spec4 L_correlate L_chi2 L_chi2shift L_fshift L_xcorr L_register L_register2
  P_chi2map P_chi2shift P_chi2errors P_chi2shift2 P_xcorr P_xcorr3 P_register3 L_tail L_same.
Import ListNotations.
Open Scope R_scope.

(** the ny x nx image (or error map) moved cyclically by p rows and q columns *)
Definition moved (a : arr num) (ny nx p q : Z) : arr num := mk2 ny nx (fun y x => get a [((y - p) mod ny)%Z; ((x - q) mod nx)%Z]).
Definition moved_err (err : errarg) (ny nx p q : Z) : errarg := match err with ErrArr a => ErrArr (moved a ny nx p q) | o => o end.

Lemma sum2_moved ny nx f p q : (0 < ny)%Z -> (0 < nx)%Z -> sum2 ny nx (fun i j => f ((i - p) mod ny)%Z ((j - q) mod nx)%Z) = sum2 ny nx f.
Proof. intros Hy Hx. rewrite <- (sum2_shift ny nx f (- p) (- q)) by auto. reflexivity. Qed.
Lemma mod2 a p s n : (0 < n)%Z -> (((a - s) mod n - p) mod n = ((a - p) mod n - s) mod n)%Z.
Proof. intros H. rewrite !Zminus_mod_idemp_l. f_equal. lia. Qed.
Lemma get_moved a ny nx p q y x : get (moved a ny nx p q) [y; x] = get a [((y - p) mod ny)%Z; ((x - q) mod nx)%Z].
Proof. reflexivity. Qed.
Lemma prep_moved zm a ny nx p q y x : (0 < ny)%Z -> (0 < nx)%Z ->
  prep zm (moved a ny nx p q) ny nx y x = prep zm a ny nx ((y - p) mod ny) ((x - q) mod nx).
Proof.
  intros Hy Hx. unfold prep. rewrite get_moved.
  assert (Ec : valid_count (moved a ny nx p q) ny nx = valid_count a ny nx).
  { unfold valid_count. change (pixel_sum ny nx) with (sum2 ny nx). apply (sum2_moved ny nx (fun i j => match get a [i; j] with Fin _ => 1 | NaN => 0 end)); auto. }
  assert (Es : pixel_sum ny nx (px (moved a ny nx p q)) = pixel_sum ny nx (px a)).
  { change (pixel_sum ny nx) with (sum2 ny nx). apply (sum2_moved ny nx (px a)); auto. }
  rewrite Ec, Es. reflexivity.
Qed.
Lemma err_zero_moved err ny nx p q y x : err_zero (moved_err err ny nx p q) y x = err_zero err ((y - p) mod ny) ((x - q) mod nx).
Proof. destruct err; reflexivity. Qed.
Lemma sigma_moved err ny nx p q y x : sigma_of (moved_err err ny nx p q) y x = sigma_of err ((y - p) mod ny) ((x - q) mod nx).
Proof. destruct err; reflexivity. Qed.
Lemma err_ok_moved err ny nx p q : err_ok err ny nx -> err_ok (moved_err err ny nx p q) ny nx.
Proof. destruct err; simpl; auto. Qed.
Lemma used_moved zm err a ny nx p q y x : (0 < ny)%Z -> (0 < nx)%Z ->
  used_image zm (moved_err err ny nx p q) (moved a ny nx p q) ny nx y x = used_image zm err a ny nx ((y - p) mod ny) ((x - q) mod nx).
Proof. intros Hy Hx. unfold used_image. rewrite err_zero_moved, prep_moved by auto. reflexivity. Qed.
Lemma ccf_moved ny nx f g p q s t : (0 < ny)%Z -> (0 < nx)%Z ->
  ccf ny nx (fun y x => f ((y - p) mod ny)%Z ((x - q) mod nx)%Z) (fun y x => g ((y - p) mod ny)%Z ((x - q) mod nx)%Z) s t = ccf ny nx f g s t.
Proof.
  intros Hy Hx. unfold ccf. change (pixel_sum ny nx) with (sum2 ny nx).
  rewrite <- (sum2_moved ny nx (fun i j => f ((i - s) mod ny)%Z ((j - t) mod nx)%Z * g i j) p q) by auto.
  apply sum2_ext. intros i j Hi Hj. rewrite (mod2 i p s ny), (mod2 j q t nx) by auto. reflexivity.
Qed.

(** the correlation map *)
Theorem C90_correlate2d :
  forall env gb (im1 im2 : arr num) nthreads use_np allow_huge ny nx p q,
  shape im1 = [ny; nx] -> shape im2 = [ny; nx] -> (0 < ny)%Z -> (0 < nx)%Z ->
  allow_huge = true \/ (16 * (ny * nx) <= gb)%Z ->
  exists c c', correlate2d env gb im1 im2 BWrap nthreads use_np allow_huge = Ok c /\
    correlate2d env gb (moved im1 ny nx p q) (moved im2 ny nx p q) BWrap nthreads use_np allow_huge = Ok c' /\ shape c' = shape c /\
    forall k l, (0 <= k < ny)%Z -> (0 <= l < nx)%Z -> g2 c' k l = g2 c k l.
Proof.
  intros env gb im1 im2 nt np huge ny nx p q H1 H2 Hy Hx Hh.
  destruct (correlate2d_wrap env gb im1 im2 nt np huge ny nx) as [c [A [B D]]]; auto.
  destruct (correlate2d_wrap env gb (moved im1 ny nx p q) (moved im2 ny nx p q) nt np huge ny nx) as [c' [A' [B' D']]]; auto.
  exists c, c'. split; [exact A|]. split; [exact A'|]. split; [congruence|]. intros k l Hk Hl. rewrite D, D' by auto.
  set (F := fun i j => nan0 (g2 im2 i j) * nan0 (g2 im1 ((i - (ny - 1) / 2 + k) mod ny)%Z ((j - (nx - 1) / 2 + l) mod nx)%Z)).
  rewrite <- (sum2_moved ny nx F p q) by auto.
  apply sum2_ext. intros i j Hi Hj. unfold F. unfold g2. rewrite !get_moved. f_equal. f_equal. f_equal. f_equal; [|f_equal].
  - rewrite Zminus_mod_idemp_l, <- Z.add_sub_swap, <- Z.add_sub_swap, <- Z.add_opp_r, <- (Z.add_opp_r ((i - p) mod ny + k)), <- !Z.add_assoc, Zplus_mod_idemp_l. f_equal. lia.
  - rewrite Zminus_mod_idemp_l, <- Z.add_sub_swap, <- Z.add_sub_swap, <- Z.add_opp_r, <- (Z.add_opp_r ((j - q) mod nx + l)), <- !Z.add_assoc, Zplus_mod_idemp_l. f_equal. lia.
Qed.
Print Assumptions C90_correlate2d.


(** the chi-squared map; the error image moves with the data *)
Lemma map_moved e im1 im2 err nt zm np ra rd huge ny nx p q :
  shape im1 = [ny; nx] -> shape im2 = [ny; nx] -> (0 < ny)%Z -> (0 < nx)%Z -> err_ok err ny nx -> size_ok e huge ny nx ->
  (rd = true -> (ny * nx <> 2)%Z) ->
  exists c t1 t2 t3 c' t1' t2' t3',
    chi2n_map e im1 im2 err BWrap nt zm np ra rd huge = Ok (if ra then Chi2All c t1 t2 t3 else Chi2Only c) /\
    chi2n_map e (moved im1 ny nx p q) (moved im2 ny nx p q) (moved_err err ny nx p q) BWrap nt zm np ra rd huge = Ok (if ra then Chi2All c' t1' t2' t3' else Chi2Only c') /\
    shape c = [ny; nx] /\ shape c' = [ny; nx] /\ (forall k l, (0 <= k < ny)%Z -> (0 <= l < nx)%Z -> g2 c' k l = g2 c k l).
Proof.
  intros H1 H2 Hy Hx He Hh Hr.
  destruct (chi2n_map_ok e im1 im2 err nt zm np ra rd huge ny nx) as [c [t1 [t2 [t3 [E [S [_ [_ V]]]]]]]]; auto.
  destruct (chi2n_map_ok e (moved im1 ny nx p q) (moved im2 ny nx p q) (moved_err err ny nx p q) nt zm np ra rd huge ny nx) as [c' [t1' [t2' [t3' [E' [S' [_ [_ V']]]]]]]]; auto using err_ok_moved.
  exists c, t1, t2, t3, c', t1', t2', t3'. split; [exact E|]. split; [exact E'|]. split; [exact S|]. split; [exact S'|].
  intros k l Hk Hl. destruct (V k l Hk Hl) as [_ [_ W]]. destruct (V' k l Hk Hl) as [_ [_ W']]. rewrite W, W'. clear W W' V V'.
  assert (Q : chi2_of ny nx (used_image zm (moved_err err ny nx p q) (moved im1 ny nx p q) ny nx) (used_image zm (moved_err err ny nx p q) (moved im2 ny nx p q) ny nx) (sigma_of (moved_err err ny nx p q)) ((ny - 1) / 2 - k) ((nx - 1) / 2 - l)
    = chi2_of ny nx (used_image zm err im1 ny nx) (used_image zm err im2 ny nx) (sigma_of err) ((ny - 1) / 2 - k) ((nx - 1) / 2 - l)).
  { unfold chi2_of. change (pixel_sum ny nx) with (sum2 ny nx).
    set (F := fun i j => ((used_image zm err im2 ny nx i j - used_image zm err im1 ny nx ((i - ((ny - 1) / 2 - k)) mod ny)%Z ((j - ((nx - 1) / 2 - l)) mod nx)%Z) / sigma_of err i j) ^ 2).
    rewrite <- (sum2_moved ny nx F p q) by auto. apply sum2_ext. intros i j Hi Hj. unfold F.
    rewrite !used_moved, sigma_moved by auto. rewrite (mod2 i p), (mod2 j q) by auto. reflexivity. }
  rewrite Q. reflexivity.
Qed.

Theorem C90_chi2n_map :
  forall e im1 im2 err nthreads zeromean use_np reduced allow_huge ny nx p q,
  shape im1 = [ny; nx] -> shape im2 = [ny; nx] -> (0 < ny)%Z -> (0 < nx)%Z -> err_ok err ny nx -> size_ok e allow_huge ny nx ->
  (reduced = true -> (ny * nx <> 2)%Z) ->
  exists c c', chi2n_map e im1 im2 err BWrap nthreads zeromean use_np false reduced allow_huge = Ok (Chi2Only c) /\
    chi2n_map e (moved im1 ny nx p q) (moved im2 ny nx p q) (moved_err err ny nx p q) BWrap nthreads zeromean use_np false reduced allow_huge = Ok (Chi2Only c') /\
    shape c' = shape c /\ forall k l, (0 <= k < ny)%Z -> (0 <= l < nx)%Z -> g2 c' k l = g2 c k l.
Proof.
  intros e im1 im2 err nt zm np rd huge ny nx p q H1 H2 Hy Hx He Hh Hr.
  destruct (map_moved e im1 im2 err nt zm np false rd huge ny nx p q) as [c [t1 [t2 [t3 [c' [t1' [t2' [t3' [E [E' [S [S' V]]]]]]]]]]]]; auto.
  exists c, c'. split; [exact E|]. split; [exact E'|]. split; [congruence|exact V].
Qed.
Print Assumptions C90_chi2n_map.

(** chi2_shift: the same offsets and, when asked for, the same errors *)
Theorem C90_chi2_shift :
  forall e im1 im2 err us nthreads use_np zeromean nfitted verbose return_error max_auto_size min_nsamp allow_huge ny nx p q,
  shape im1 = [ny; nx] -> shape im2 = [ny; nx] -> (0 < ny)%Z -> (0 < nx)%Z -> err_ok err ny nx -> size_ok e allow_huge ny nx ->
  chi2_shift e (moved im1 ny nx p q) (moved im2 ny nx p q) (moved_err err ny nx p q) us BWrap nthreads use_np zeromean nfitted verbose return_error false max_auto_size min_nsamp allow_huge =
  chi2_shift e im1 im2 err us BWrap nthreads use_np zeromean nfitted verbose return_error false max_auto_size min_nsamp allow_huge /\
  (* with return_chi2array=True: the maps are the same too *)
  same_call 0
    (chi2_shift e (moved im1 ny nx p q) (moved im2 ny nx p q) (moved_err err ny nx p q) us BWrap nthreads use_np zeromean nfitted verbose return_error true max_auto_size min_nsamp allow_huge)
    (chi2_shift e im1 im2 err us BWrap nthreads use_np zeromean nfitted verbose return_error true max_auto_size min_nsamp allow_huge).
Proof.
  intros e im1 im2 err us nt np zm nf vb re mas mns huge ny nx p q H1 H2 Hy Hx He Hh.
  destruct (map_moved e im1 im2 err nt zm np true false huge ny nx p q) as [c [t1 [t2 [t3 [c' [t1' [t2' [t3' [E [E' [S [S' V]]]]]]]]]]]]; auto; try discriminate.
  split; [apply (same_maps e (moved im1 ny nx p q) (moved im2 ny nx p q) (moved_err err ny nx p q) im1 im2 err zm zm us BWrap BWrap nt nt np np nf vb re false mas mns huge huge ny nx c' t1' t2' t3' c t1 t2 t3)|apply (same_maps e (moved im1 ny nx p q) (moved im2 ny nx p q) (moved_err err ny nx p q) im1 im2 err zm zm us BWrap BWrap nt nt np np nf vb re true mas mns huge huge ny nx c' t1' t2' t3' c t1 t2 t3)]; auto.
Qed.
Print Assumptions C90_chi2_shift.

(** cross_correlation_shifts, whatever its options; the error images enter only a Gaussian fit with errors, and have to be moved then *)
Lemma std2_moved ny nx f p q : (0 < ny)%Z -> (0 < nx)%Z -> std2 ny nx (fun y x => f ((y - p) mod ny)%Z ((x - q) mod nx)%Z) = std2 ny nx f.
Proof.
  intros Hy Hx. unfold std2. rewrite (sum2_moved ny nx f) by auto. f_equal. f_equal.
  apply (sum2_moved ny nx (fun y x => (f y x - sum2 ny nx f / IZR (ny * nx)) ^ 2)); auto.
Qed.
Lemma error_moved ny nx o f p q y x : (0 < ny)%Z -> (0 < nx)%Z -> (0 <= y < ny)%Z -> (0 <= x < nx)%Z ->
  pixel_error ny nx (option_map (fun a => moved a ny nx p q) o) (fun y x => f ((y - p) mod ny)%Z ((x - q) mod nx)%Z) y x =
  pixel_error ny nx o f ((y - p) mod ny)%Z ((x - q) mod nx)%Z.
Proof. intros Hy Hx HY HX. destruct o as [a|]; cbn [option_map pixel_error]; [reflexivity|]. apply std2_moved; auto. Qed.
Theorem C90_cross_correlation_shifts :
  forall e agpy im1 im2 er1 er2 er1' er2' maxoff gaussfit return_error zeromean nthreads use_np allow_huge ny nx p q,
  shape im1 = [ny; nx] -> shape im2 = [ny; nx] -> (0 < ny)%Z -> (0 < nx)%Z -> size_ok e allow_huge ny nx ->
  errim_ok er1 ny nx -> errim_ok er2 ny nx -> errim_ok er1' ny nx -> errim_ok er2' ny nx ->
  (gaussfit = true -> return_error = true ->
     er1' = option_map (fun a => moved a ny nx p q) er1 /\ er2' = option_map (fun a => moved a ny nx p q) er2) ->
  cross_correlation_shifts e agpy (moved im1 ny nx p q) (moved im2 ny nx p q) er1' er2' maxoff gaussfit return_error zeromean BWrap nthreads use_np allow_huge =
  cross_correlation_shifts e agpy im1 im2 er1 er2 maxoff gaussfit return_error zeromean BWrap nthreads use_np allow_huge.
Proof.
  intros e agpy im1 im2 er1 er2 er1' er2' mo gf re zm nt np huge ny nx p q H1 H2 Hy Hx Hh E1 E2 E1' E2' HE.
  rewrite (xcorr_eq e agpy im1 im2 er1 er2 mo gf re zm nt np huge ny nx) by auto.
  rewrite (xcorr_eq e agpy (moved im1 ny nx p q) (moved im2 ny nx p q) er1' er2' mo gf re zm nt np huge ny nx) by auto.
  assert (F : forall a, prep zm (moved a ny nx p q) ny nx = fun y x => prep zm a ny nx ((y - p) mod ny)%Z ((x - q) mod nx)%Z).
  { intros a. apply functional_extensionality. intros y. apply functional_extensionality. intros x. apply prep_moved; auto. }
  assert (Q : forall a, sqsum ny nx (prep zm (moved a ny nx p q) ny nx) = sqsum ny nx (prep zm a ny nx)).
  { intros a. rewrite F. unfold sqsum. apply (sum2_moved ny nx (fun i j => prep zm a ny nx i j ^ 2)); auto. }
  rewrite !Q. transitivity (xtail agpy ny nx (fun k l => ccf ny nx (prep zm (moved im1 ny nx p q) ny nx) (prep zm (moved im2 ny nx p q) ny nx) ((ny - 1) / 2 - k) ((nx - 1) / 2 - l) / IZR (ny * nx))
    (emap_of ny nx er1 er2 (prep zm im1 ny nx) (prep zm im2 ny nx) re) (sqsum ny nx (prep zm im1 ny nx)) (sqsum ny nx (prep zm im2 ny nx)) mo gf re).
  - destruct gf; [|reflexivity]. destruct re; [|reflexivity]. destruct (HE eq_refl eq_refl) as [-> ->]. f_equal. unfold emap_of. f_equal.
    apply rows_ext. intros k l Hk Hl. rewrite !F. unfold emap. f_equal.
    f_equal.
    + rewrite <- (ccf_moved ny nx (fun y x => pixel_error ny nx er1 (prep zm im1 ny nx) y x ^ 2) (fun y x => prep zm im2 ny nx y x ^ 2) p q) by auto.
      apply ccf_ext; auto. intros y x HY HX. rewrite error_moved by auto. reflexivity.
    + rewrite <- (ccf_moved ny nx (fun y x => pixel_error ny nx er2 (prep zm im2 ny nx) y x ^ 2) (fun y x => prep zm im1 ny nx y x ^ 2) p q) by auto.
      apply ccf_ext; auto. intros y x HY HX. rewrite error_moved by auto. reflexivity.
  - apply xtail_ext; auto. intros k l Hk Hl. rewrite !F. rewrite ccf_moved by auto. reflexivity.
Qed.
Print Assumptions C90_cross_correlation_shifts.

(** register_images at every upsampling factor *)
Lemma cshift_of_roll ny nx f p q ty tx i j : (0 < ny)%Z -> (0 < nx)%Z -> (0 <= i < ny)%Z -> (0 <= j < nx)%Z ->
  cshift ny nx (fun y x => f ((y - p) mod ny)%Z ((x - q) mod nx)%Z) ty tx i j = cshift ny nx f ty tx ((i - p) mod ny) ((j - q) mod nx).
Proof.
  intros Hy Hx Hi Hj. rewrite cshift_mod by auto. rewrite <- !Z.add_opp_r, <- (cshift_add_int ny nx f ty tx (- p) (- q) i j), !opp_IZR.
  rewrite <- !cshift_shifted by auto. assert (Hp := pos2 ny nx Hy Hx).
  assert (C := shifted_comp [ny; nx] (fun y => RtoC (img2 f y)) (toR [p; q]) 0 [ty; tx] 0 [i; j] Hp eq_refl eq_refl).
  rewrite Rplus_0_l in C. change (addR (toR [p; q]) [ty; tx]) with [IZR p + ty; IZR q + tx] in C.
  replace (ty - - IZR p) with (IZR p + ty) by ring. replace (tx - - IZR q) with (IZR q + tx) by ring.
  rewrite <- C by (repeat split; lia). apply shifted_ext. intros z Hz. assert (Hz' := Hz). apply inb2 in Hz. destruct Hz as [a [b [-> [Ha Hb]]]].
  rewrite shifted_int by auto. rewrite Ropp_0, cis_0, Cmult_1_l. cbn [img2]. reflexivity.
Qed.
Lemma rcc_moved ny nx f g p q ty tx : (0 < ny)%Z -> (0 < nx)%Z ->
  rcc ny nx (fun y x => f ((y - p) mod ny)%Z ((x - q) mod nx)%Z) (fun y x => g ((y - p) mod ny)%Z ((x - q) mod nx)%Z) ty tx = rcc ny nx f g ty tx.
Proof.
  intros Hy Hx. unfold rcc.
  set (F := fun i j : Z => Cmult (cshift ny nx f ty tx i j) (RtoC (g i j))).
  rewrite (sumC_ext ny _ (fun i => sumC nx (fun j => F ((i - p) mod ny)%Z ((j - q) mod nx)%Z))).
  2:{ intros i Hi. apply sumC_ext. intros j Hj. unfold F. rewrite cshift_of_roll by auto. reflexivity. }
  assert (P : forall n (h : Z -> C) d, (0 < n)%Z -> sumC n (fun i => h ((i - d) mod n)%Z) = sumC n h).
  { intros n h d Hn. transitivity (sumC n (fun i => h (i mod n)%Z)); [apply (sumC_periodic_shift n (fun i => h (i mod n)%Z) (- d)); [lia|]|apply sumC_ext; intros i Hi; rewrite Z.mod_small by lia; reflexivity].
    intros z. f_equal. rewrite <- (Z.mul_1_l n) at 1. apply Z_mod_plus_full. }
  rewrite (P ny (fun i => sumC nx (fun j => F i ((j - q) mod nx)%Z)) p) by auto.
  apply sumC_ext. intros i Hi. apply (P nx (F i) q). auto.
Qed.

Theorem C90_register_images :
  forall has_fftw im1 im2 u return_error zeromean maxoff nthreads use_np ny nx p q,
  shape im1 = [ny; nx] -> shape im2 = [ny; nx] -> (0 < ny)%Z -> (0 < nx)%Z -> u <> 0 ->
  register_images has_fftw (moved im1 ny nx p q) (moved im2 ny nx p q) u false return_error zeromean maxoff nthreads use_np =
  register_images has_fftw im1 im2 u false return_error zeromean maxoff nthreads use_np.
Proof.
  intros hf im1 im2 u re zm mo nt np ny nx p q H1 H2 Hy Hx Hu.
  assert (K := register_eq hf im1 im2 u false re zm mo nt np ny nx H1 H2 Hy Hx Hu ltac:(discriminate)).
  assert (K' := register_eq hf (moved im1 ny nx p q) (moved im2 ny nx p q) u false re zm mo nt np ny nx eq_refl eq_refl Hy Hx Hu ltac:(discriminate)).
  cbv zeta in K, K'.
  assert (F : forall a, prep zm (moved a ny nx p q) ny nx = fun y x => prep zm a ny nx ((y - p) mod ny)%Z ((x - q) mod nx)%Z).
  { intros a. apply functional_extensionality. intros y. apply functional_extensionality. intros x. apply prep_moved; auto. }
  rewrite (regtail_scal ny nx (mag ny nx (prep zm im1 ny nx) (prep zm im2 ny nx)) (mag ny nx (prep zm (moved im1 ny nx p q) ny nx) (prep zm (moved im2 ny nx p q) ny nx)) 1) in K' by (auto; try lra; intros r c; rewrite Rmult_1_l; unfold mag; rewrite !F, rcc_moved by auto; reflexivity).
  destruct (regtail ny nx (mag ny nx (prep zm im1 ny nx) (prep zm im2 ny nx)) u mo) as [r c].
  destruct K as [tl [K [T _]]]. destruct K' as [tl' [K' [T' _]]]. rewrite K, K'. rewrite T, T' by auto. reflexivity.
Qed.
Print Assumptions C90_register_images.

(** *** C43 at every factor: with zeromean=True constants added to the images do not matter *)
Theorem C43_zeromean_ignores_constants_any_factor :
  forall e im1 im2 err us nthreads use_np nfitted verbose return_error mas mns allow_huge ny nx k1 k2,
  shape im1 = [ny; nx] -> shape im2 = [ny; nx] -> (0 < ny)%Z -> (0 < nx)%Z -> err_ok err ny nx -> size_ok e allow_huge ny nx ->
  chi2_shift e (add_const k1 im1) (add_const k2 im2) err us BWrap nthreads use_np true nfitted verbose return_error false mas mns allow_huge =
  chi2_shift e im1 im2 err us BWrap nthreads use_np true nfitted verbose return_error false mas mns allow_huge /\
  same_call 0
    (chi2_shift e (add_const k1 im1) (add_const k2 im2) err us BWrap nthreads use_np true nfitted verbose return_error true mas mns allow_huge)
    (chi2_shift e im1 im2 err us BWrap nthreads use_np true nfitted verbose return_error true mas mns allow_huge).
Proof.
  intros e im1 im2 err us nt np nf vb re mas mns huge ny nx k1 k2 H1 H2 Hy Hx He Hh.
  destruct (chi2n_map_ok e im1 im2 err nt true np true false huge ny nx H1 H2 Hy Hx He Hh ltac:(discriminate)) as [c [t1 [t2 [t3 [E [S1 [_ [_ V]]]]]]]].
  destruct (chi2n_map_ok e (add_const k1 im1) (add_const k2 im2) err nt true np true false huge ny nx H1 H2 Hy Hx He Hh ltac:(discriminate)) as [c' [t1' [t2' [t3' [E' [S1' [_ [_ V']]]]]]]].
  assert (W : forall k l, (0 <= k < ny)%Z -> (0 <= l < nx)%Z -> g2 c' k l = g2 c k l).
  { intros k l Hk Hl. destruct (V k l Hk Hl) as [_ [_ ->]]. destruct (V' k l Hk Hl) as [_ [_ ->]].
    apply sum2_ext. intros i j Hi Hj. f_equal. f_equal. unfold used_image.
    rewrite !prep_add_const by (auto; apply Z.mod_pos_bound; auto). reflexivity. }
  split; [apply (same_maps e (add_const k1 im1) (add_const k2 im2) err im1 im2 err true true us BWrap BWrap nt nt np np nf vb re false mas mns huge huge ny nx c' t1' t2' t3' c t1 t2 t3)|apply (same_maps e (add_const k1 im1) (add_const k2 im2) err im1 im2 err true true us BWrap BWrap nt nt np np nf vb re true mas mns huge huge ny nx c' t1' t2' t3' c t1 t2 t3)]; auto.
Qed.
Print Assumptions C43_zeromean_ignores_constants_any_factor.

(** a concrete 2 x 3 pair, one pixel missing, moved by (1, 2) *)
Example C90_nonvacuous :
  exists (im1 im2 er : arr num), shape im1 = [2; 3]%Z /\ shape im2 = [2; 3]%Z /\ err_ok (ErrArr er) 2 3 /\
    get (moved im1 2 3 1 2) [0; 0]%Z <> get im1 [0; 0]%Z /\ get (moved im1 2 3 1 2) [1; 2]%Z = get im1 [0; 0]%Z /\ get im2 [1; 1]%Z = NaN.
Proof.
  exists (mk2 2 3 (fun y x => Fin (IZR (y * 3 + x)))), (mk2 2 3 (fun y x => if ((y =? 1) && (x =? 1))%Z then NaN else Fin (IZR (y - x)))), (mk2 2 3 (fun y x => Fin (IZR (1 + y)))).
  repeat split; try reflexivity. cbn. intros H. injection H. lra.
Qed.
