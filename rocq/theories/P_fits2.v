(** C65-C68, C76: match_fits, register_fits, cross_correlation_shifts_FITS, loading *)
From Coq Require Import ZArith Lia List Reals Lra Bool String FunctionalExtensionality.
From Coquelicot Require Import Complex.
From Verif Require Import Base NDim DFT Kernel Num Py M_shift M_convolve M_xcorr M_chi2 M_iterzoom M_register M_fits M_fits2 Spec Spec2 Spec3 Spec7 Arg L_shift P_shift
  L_chi2 L_chi2shift P_chi2shift P_chi2errors P_xcorr P_iterzoom3.
Import ListNotations.
Open Scope R_scope.

Lemma same_shape_true {A B} (a : arr A) (b : arr B) : same_shape a b = true <-> shape a = shape b.
Proof. unfold same_shape. destruct (list_eq_dec Z.eq_dec (shape a) (shape b)); split; intros; congruence. Qed.

Lemma cut_below_pixel a noise s i : cut_pixel noise s (get a i) (get (cut_below a (num_scale s noise)) i).
Proof.
  unfold cut_pixel, cut_below. cbn [amap get]. destruct (get a i) as [v|]; [|reflexivity]. unfold significant, num_gt, num_scale. destruct noise as [t|].
  - destruct (Rlt_dec (t * s) v); [left|right]; split; auto; f_equal; ring.
  - right. split; [auto|]. f_equal. ring.
Qed.
Lemma common_bright a b n1 n2 s : shape a = shape b ->
  bright_overlap n1 n2 s a b (common_signal (cut_below a (num_scale s n1)) (cut_below b (num_scale s n2))).
Proof.
  intros Hs. unfold bright_overlap, common_signal. exists (fun i => match get (cut_below a (num_scale s n1)) i, get (cut_below b (num_scale s n2)) i with Fin x, Fin y => x * y | _, _ => 0 end).
  split; [reflexivity|]. intros i Hi. assert (A := cut_below_pixel a n1 s i). assert (B := cut_below_pixel b n2 s i).
  unfold cut_pixel in A, B. destruct (get a i) as [x|]; [|right; rewrite A; split; [left; cbn; auto|reflexivity]].
  destruct (get b i) as [y|]; [|right; rewrite B; split; [right; cbn; auto|destruct A as [[_ ->]|[_ ->]]; reflexivity]].
  destruct A as [[A1 ->]|[A1 ->]]; [|right; split; [auto|]; destruct B as [[_ ->]|[_ ->]]; ring].
  destruct B as [[B1 ->]|[B1 ->]]; [left; split; [auto|]; split; [auto|]; exists x, y; auto|right; split; [auto|ring]].
Qed.
Lemma bright_unique n1 n2 s a b x y : bright_overlap n1 n2 s a b x -> bright_overlap n1 n2 s a b y -> x = y.
Proof.
  intros [f [-> F]] [g [-> G]]. apply sumNR_ext. intros i Hi. specialize (F i Hi). specialize (G i Hi).
  destruct F as [[F1 [F2 [u [v [Fa [Fb ->]]]]]]|[F1 ->]]; destruct G as [[G1 [G2 [u' [v' [Ga [Gb ->]]]]]]|[G1 ->]]; try tauto. congruence.
Qed.

(** *** C65 *)
Theorem C65_match_fits :
  forall W f1 f2 hdr sigma_cut mad c1 c2 h, match_fits W f1 f2 hdr sigma_cut mad = Ok (c1, c2, h) ->
  exists im1 im2,
    (* image 1 as it is on the target grid, image 2 projected onto it *)
    ((hdr = None /\ load_header W f1 = Ok h /\ load_data W f1 = Ok (Some im1)) \/ (hdr = Some h /\ io_reproject W f1 h = Ok im1)) /\
    io_reproject W f2 h = Ok im2 /\
    shape im1 = shape im2 /\ shape c1 = shape c2 /\ shape c1 = shape im1 /\
    (* no cut asked for *)
    (sigma_cut = None \/ sigma_cut = Some 0 -> c1 = im1 /\ c2 = im2) /\
    (* a cut: the images are returned uncut if the significant pixels have no common signal, else pixel by pixel cut *)
    (forall s, sigma_cut = Some s -> s <> 0 ->
       let noise := if mad then io_mad_std W else io_nanstd W in
       (bright_overlap (noise im1) (noise im2) s im1 im2 0 /\ c1 = im1 /\ c2 = im2) \/
       (~ bright_overlap (noise im1) (noise im2) s im1 im2 0 /\
        forall i, inb (shape im1) i -> cut_pixel (noise im1) s (get im1 i) (get c1 i) /\ cut_pixel (noise im2) s (get im2 i) (get c2 i))).
Proof.
  intros W f1 f2 hdr sc mad c1 c2 h. unfold match_fits, project_to_header.
  assert (HI : forall r, match hdr with None => let! h := load_header W f1 in let! d := load_data W f1 in Ok (h, d) | Some h => let! a := io_reproject W f1 h in Ok (h, Some a) end = Ok r ->
     match snd r with Some im1 => (hdr = None /\ load_header W f1 = Ok (fst r) /\ load_data W f1 = Ok (Some im1)) \/ (hdr = Some (fst r) /\ io_reproject W f1 (fst r) = Ok im1) | None => True end).
  { intros [h0 o]. destruct hdr as [hh|].
    - destruct (io_reproject W f1 hh) as [a|] eqn:E; cbn [bind]; [|discriminate]. intros Q. injection Q as <- <-. cbn. right. auto.
    - destruct (load_header W f1) as [hh|]; cbn [bind]; [|discriminate]. destruct (load_data W f1) as [d|]; cbn [bind]; [|discriminate]. intros Q. injection Q as <- <-. cbn. destruct d; auto. }
  destruct (match hdr with None => _ | Some _ => _ end) as [[h0 o1]|]; cbn [bind]; [|discriminate]. specialize (HI _ eq_refl). cbn [fst snd] in HI.
  destruct (io_reproject W f2 h0) as [im2|] eqn:E2; cbn [bind]; [|discriminate]. destruct o1 as [im1|]; [|discriminate].
  destruct (same_shape im1 im2) eqn:ES; cbn [negb]; [|discriminate]. apply same_shape_true in ES.
  set (noise := if mad then io_mad_std W else io_nanstd W). destruct (sigma_cut_images (noise im1) (noise im2) im1 im2 sc) as [a b] eqn:EC. intros Q. injection Q as <- <- <-.
  exists im1, im2. split; [exact HI|]. split; [exact E2|]. split; [exact ES|]. unfold sigma_cut_images in EC.
  destruct (truthy sc) as [s|] eqn:ET.
  - assert (sc = Some s /\ s <> 0) by (unfold truthy in ET; destruct sc as [s0|]; [|discriminate]; destruct (Req_EM_T s0 0); [discriminate|]; injection ET as <-; auto). destruct H as [-> Hs].
    assert (B := common_bright im1 im2 (noise im1) (noise im2) s ES). destruct (Req_EM_T _ 0) as [Z0|Z0]; injection EC as <- <-.
    + rewrite Z0 in B. split; [auto|]. split; [reflexivity|]. split; [intros [Q|Q]; [discriminate|injection Q as ->; contradiction]|]. intros s' Q _. injection Q as <-. left. auto.
    + split; [cbn; auto|]. split; [reflexivity|]. split; [intros [Q|Q]; [discriminate|injection Q as ->; contradiction]|]. intros s' Q _. injection Q as <-. right. split.
      * intros B'. apply Z0. apply (bright_unique _ _ _ _ _ _ _ B B').
      * intros i Hi. split; apply cut_below_pixel.
  - injection EC as <- <-. split; [auto|]. split; [reflexivity|]. split; [auto|]. intros s -> Hs. unfold truthy in ET. destruct (Req_EM_T s 0); [contradiction|discriminate].
Qed.
Print Assumptions C65_match_fits.
Theorem C65_shape_mismatch_raises :
  forall W f1 f2 sigma_cut mad h im1 im2,
  load_header W f1 = Ok h -> load_data W f1 = Ok (Some im1) -> io_reproject W f2 h = Ok im2 -> shape im1 <> shape im2 ->
  match_fits W f1 f2 None sigma_cut mad = Raise ValueError.
Proof.
  intros W f1 f2 sc mad h im1 im2 H1 H2 H3 H4. unfold match_fits, project_to_header. rewrite H1. cbn [bind]. rewrite H2. cbn [bind]. rewrite H3. cbn [bind].
  destruct (same_shape im1 im2) eqn:E; [apply same_shape_true in E; contradiction|]. reflexivity.
Qed.
Print Assumptions C65_shape_mismatch_raises.
(** and it does not raise when the shapes agree *)
Theorem C65_equal_shapes_succeed :
  forall W f1 f2 sigma_cut mad h im1 im2,
  load_header W f1 = Ok h -> load_data W f1 = Ok (Some im1) -> io_reproject W f2 h = Ok im2 -> shape im1 = shape im2 ->
  exists c1 c2, match_fits W f1 f2 None sigma_cut mad = Ok (c1, c2, h).
Proof.
  intros W f1 f2 sc mad h im1 im2 H1 H2 H3 H4. unfold match_fits, project_to_header. rewrite H1. cbn [bind]. rewrite H2. cbn [bind]. rewrite H3. cbn [bind].
  apply same_shape_true in H4. rewrite H4. cbn [negb]. destruct (sigma_cut_images _ _ _ _ _) as [c1 c2]. eauto.
Qed.
Print Assumptions C65_equal_shapes_succeed.

(** a world with one image and header on disk, for the concrete cases *)
Definition demo_hdr : header := [("NAXIS1", HInt 4); ("NAXIS2", HInt 4); ("CD1_1", HFloat (-2)); ("CD2_2", HFloat 3)]%string.
Definition demo_img (y x : Z) : arr num := mk2 4 4 (fun i j => Fin (if ((i =? y) && (j =? x))%Z then 1 else 0)).
Definition demo_world (im1 im2 : arr num) : world :=
  World (fun _ => Ok demo_hdr) (fun _ => Raise IOError) (fun _ => Raise IOError) (fun _ => Ok im1)
        (fun h => Ok (Wcs (fun p => p) (Some (-2, 0, 0, 3)) (1, 1))) (fun _ _ => Ok im2) (fun _ => Fin (1/4)) (fun _ => Fin (1/4)).
Example C65_nonvacuous : exists c1 c2, match_fits (demo_world (demo_img 1 1) (demo_img 1 1)) (SStr "a.fits") (SStr "b.fits") None (Some 3) true = Ok (c1, c2, demo_hdr).
Proof. eapply C65_equal_shapes_succeed; reflexivity. Qed.

(** *** C66: register_fits *)
Theorem C66_layout :
  forall has_fftw W f1 f2 errfile method rerr rimg rshift rhdr sigma_cut im1 im2 h err x y ex ey w shifted,
  match_fits W f1 f2 None sigma_cut true = Ok (im1, im2, h) ->
  (errfile = None /\ err = None \/ exists f e, errfile = Some f /\ io_reproject W f h = Ok e /\ err = Some e) ->
  method im1 im2 err = Ok [x; y; ex; ey] -> io_wcs W h = Ok w ->
  (rshift = true -> shift2d has_fftw (of_num im2) (- x) (- y) 0 1 false false true = Ok shifted) ->
  register_fits has_fftw W f1 f2 errfile rerr method rimg rshift rhdr sigma_cut =
    Ok (layout rerr rimg rshift rhdr x y ex ey (scale_of w AX1) (scale_of w AX2) im1 im2 shifted h).
Proof.
  intros hf W f1 f2 ef m re ri rs rh sc im1 im2 h err x y ex ey w sh M EF R WC SH. unfold register_fits. rewrite M. cbn [bind].
  assert (E : match ef with Some f => let! a := project_to_header W f h in Ok (Some a) | None => Ok None end = Ok err).
  { destruct EF as [[-> ->]|[f [e [-> [Q ->]]]]]; [reflexivity|]. unfold project_to_header. rewrite Q. reflexivity. }
  rewrite E. cbn [bind]. rewrite R. cbn [bind]. rewrite WC. cbn [bind]. unfold layout, scale_of, coord. rewrite (surjective_pairing (w_cdelt w)).
  assert (S' : forall l, (if rs then let! s := shift2d hf (of_num im2) (- x) (- y) 0 1 false false true in Ok (l ++ [FShifted s]) else Ok l) = Ok (l ++ (if rs then [FShifted sh] else []))).
  { intros l. destruct rs; [rewrite (SH eq_refl); reflexivity|rewrite app_nil_r; reflexivity]. }
  destruct (w_cd w) as [[[[c11 c12] c21] c22]|]; rewrite S'; cbn [bind fst snd]; destruct re, ri, rs, rh; reflexivity.
Qed.
Print Assumptions C66_layout.
(** a method that does not return four numbers: ValueError *)
Theorem C66_wrong_number_raises :
  forall has_fftw W f1 f2 rerr (method : arr num -> arr num -> option (arr num) -> res (list R)) rimg rshift rhdr sigma_cut im1 im2 h l,
  match_fits W f1 f2 None sigma_cut true = Ok (im1, im2, h) -> method im1 im2 None = Ok l -> List.length l <> 4%nat ->
  register_fits has_fftw W f1 f2 None rerr method rimg rshift rhdr sigma_cut = Raise ValueError.
Proof.
  intros hf W f1 f2 re m ri rs rh sc im1 im2 h l M R L. unfold register_fits. rewrite M. cbn [bind]. rewrite R. cbn [bind].
  destruct l as [|a [|b [|c [|d [|e l]]]]]; try reflexivity. cbn in L. congruence.
Qed.
Print Assumptions C66_wrong_number_raises.

(** with chi2_shift on an image and its roll: pixel offsets are the roll, world offsets the roll times the pixel scale, and the
    shifted image is image 1 again *)
Theorem C66_chi2_shift_roll :
  forall e W f1 f2 rerr rimg rhdr im1 im2 h w ny nx dy dx u s1 s2 t,
  match_fits W f1 f2 None None true = Ok (im1, im2, h) -> io_wcs W h = Ok w ->
  is_roll im1 im2 ny nx dy dx -> (0 < ny)%Z -> (0 < nx)%Z -> size_ok e false ny nx ->
  explicit_grid (UInt u) ny nx (IZR u) s1 s2 -> hits_pixel ny u s1 -> hits_pixel nx u s2 -> one_sigma e t ->
  no_real_symmetry ny nx (prep false im1 ny nx) ->
  (- (ny / 2) <= dy <= (ny - 1) / 2)%Z -> (- (nx / 2) <= dx <= (nx - 1) / 2)%Z ->
  exists ex ey shifted,
    register_fits (e_fftw e) W f1 f2 None rerr (call_with_error e (MChi2 (UInt u))) rimg true rhdr None =
      Ok (layout rerr rimg true rhdr (IZR dx) (IZR dy) ex ey (scale_of w AX1) (scale_of w AX2) im1 im2 (RealArr shifted) h) /\
    shape shifted = [ny; nx] /\
    forall i j, (0 <= i < ny)%Z -> (0 <= j < nx)%Z -> g2 shifted i j = px im1 i j.
Proof.
  intros e W f1 f2 re ri rh im1 im2 h w ny nx dy dx u s1 s2 t M WC HR Hy Hx Hh Hg P1 P2 Ht Hn Dy Dx.
  destruct (C38_roll_reproduced e im1 im2 ErrNone 1 u 1 false false 2 true false 512 (11/10) false ny nx dy dx s1 s2 t HR Hy Hx Hh (or_introl (conj eq_refl eq_refl)) Hg P1 P2 Ht) as [x [y [rest [E [_ Eq]]]]].
  specialize (Eq Hn). destruct Eq as [Ey Ex].
  replace ((ny - 1) / 2 - ((ny - 1) / 2 - dy) mod ny)%Z with dy in Ey.
  2:{ rewrite Z.mod_small; [lia|]. Z.to_euclidean_division_equations; lia. }
  replace ((nx - 1) / 2 - ((nx - 1) / 2 - dx) mod nx)%Z with dx in Ex.
  2:{ rewrite Z.mod_small; [lia|]. Z.to_euclidean_division_equations; lia. }
  destruct HR as [H1 [H2 HR]].
  destruct (C43_return_layout e im1 im2 ErrNone (UInt u) 1 false false 2 true false 512 (11/10) false ny nx (IZR u) s1 s2 t H1 H2 Hy Hx I Hh Hg Ht) as [x' [y' [ex [ey [xv [yv [ups [E' _]]]]]]]].
  rewrite E in E'. injection E' as <- <- Er. cbn [app] in Er. subst rest x y.
  destruct (C01_integer_shift_is_roll (e_fftw e) im2 [- dy; - dx]%Z 0 1%Z false false) as [out [Eo [So Go]]]; [rewrite H2; repeat constructor; auto|unfold ndim; rewrite H2; reflexivity|].
  assert (C7 := C07_shift2d_is_shiftnd (e_fftw e) (of_num im2) ny nx (IZR (- dx)) (IZR (- dy)) 0 1%Z false false true H2).
  cbn [map] in Eo. rewrite Eo in C7. unfold same_result in C7.
  destruct (shift2d _ _ _ _ _ _ _ _ _) as [sh|] eqn:ES; [|contradiction]. destruct sh as [sh|]; [|contradiction]. destruct C7 as [C7s C7g].
  exists ex, ey, sh. split; [|split; [rewrite C7s, So; exact H2|]].
  - apply C66_layout with (err := None); auto.
    + cbn [call_with_error err_of]. rewrite E. reflexivity.
    + intros _. rewrite !opp_IZR in ES. exact ES.
  - intros i j Hi Hj. assert (Hin : inb [ny; nx] [i; j]) by (repeat split; lia). unfold g2. rewrite C7g by (rewrite C7s, So, H2; exact Hin). rewrite Go by (rewrite H2; exact Hin).
    rewrite cos_0, Rmult_1_l. unfold roll. cbn [get]. unfold px. rewrite H2. unfold roll_src. cbn.
    rewrite HR by (apply Z.mod_pos_bound; lia). unfold nan0.
    replace (((i - - dy) mod ny - dy) mod ny)%Z with i by (rewrite Zminus_mod_idemp_l; replace (i - - dy - dy)%Z with i by lia; rewrite Z.mod_small; lia).
    replace (((j - - dx) mod nx - dx) mod nx)%Z with j by (rewrite Zminus_mod_idemp_l; replace (j - - dx - dx)%Z with j by lia; rewrite Z.mod_small; lia).
    reflexivity.
Qed.
Print Assumptions C66_chi2_shift_roll.

Lemma dot_no_symmetry_zm ny nx a b v : (0 <= a < ny)%Z -> (0 <= b < nx)%Z -> v <> 0 ->
  no_symmetry ny nx (prep true (mk2 ny nx (fun i j => Fin (if ((i =? a) && (j =? b))%Z then v else 0))) ny nx).
Proof.
  intros Ha Hb Hv s t H. specialize (H a b Ha Hb). unfold prep in H. cbn [mk2 get] in H. rewrite !Z.eqb_refl in H. cbn [andb] in H.
  destruct (Z.eqb_spec ((a - s) mod ny) a) as [E1|E1]; [|cbn [andb] in H; exfalso; apply Hv; lra].
  destruct (Z.eqb_spec ((b - t) mod nx) b) as [E2|E2]; [|cbn [andb] in H; exfalso; apply Hv; lra].
  assert (G : forall n c r, (0 <= c < n)%Z -> ((c - r) mod n = c)%Z -> (r mod n = 0)%Z).
  { intros n c r Hc E. apply Z.mod_divide; [lia|]. exists ((c - r) / n * -1)%Z. assert (D := Z.div_mod (c - r) n ltac:(lia)). lia. }
  split; eapply G; eauto.
Qed.

(** a 5 x 5 image of one bright pixel, rolled by (-2, -2), pixel scale (-2, 3) *)
Example C66_nonvacuous : exists ex ey shifted,
  register_fits false (demo_world delta5 delta5r) (SStr "a.fits") (SStr "b.fits") None true
    (call_with_error (Env false (2 ^ 30) false (fun _ _ => NaN)) (MChi2 (UInt 3))) false true true None =
  Ok [FNum (-2); FNum (-2); FNum (-2 * -2); FNum (-2 * 3); FNum ex; FNum ey; FNum (ex * -2); FNum (ey * 3); FShifted (RealArr shifted); FHdr demo_hdr] /\
  g2 shifted 1 3 = 7 /\ g2 shifted 4 1 = 0.
Proof.
  destruct C38_nonvacuous as [_ [N [T [S _]]]].
  assert (R : is_roll delta5 delta5r 5 5 (-2) (-2)).
  { split; [reflexivity|]. split; [reflexivity|]. intros y x Hy Hx.
    assert (y = 0 \/ y = 1 \/ y = 2 \/ y = 3 \/ y = 4)%Z as [-> | [-> | [-> | [-> | ->]]]] by lia;
    assert (x = 0 \/ x = 1 \/ x = 2 \/ x = 3 \/ x = 4)%Z as [-> | [-> | [-> | [-> | ->]]]] by lia; reflexivity. }
  destruct (C66_chi2_shift_roll (Env false (2 ^ 30) false (fun _ _ => NaN)) (demo_world delta5 delta5r) (SStr "a.fits") (SStr "b.fits") true false true
     delta5 delta5r demo_hdr (Wcs (fun p => p) (Some (-2, 0, 0, 3)) (1, 1)) 5 5 (-2) (-2) 3 5 5 (159358435 / 100000000)) as [ex [ey [sh [E [_ G]]]]]; auto; try lia; try reflexivity; try (cbn; lia).
  - cbn. repeat split; lia.
  - exists ex, ey, sh. split; [exact E|]. rewrite !G by lia. split; reflexivity.
Qed.

(** *** C67: cross_correlation_shifts_FITS *)
Theorem C67_result :
  forall W f1 f2 rimg sigma_cut (method : arr num -> arr num -> res (list R)) l,
  cross_correlation_shifts_FITS W f1 f2 rimg sigma_cut method = Ok l ->
  exists h im1 im2 c1 c2 x y w,
    load_header W f1 = Ok h /\ load_data W f1 = Ok (Some im1) /\ io_reproject W f2 h = Ok im2 /\ shape im1 = shape im2 /\
    (* the images given to the shift function *)
    (sigma_cut = None \/ sigma_cut = Some 0 -> c1 = im1 /\ c2 = im2) /\
    (forall s, sigma_cut = Some s -> s <> 0 ->
       (bright_overlap (np_std im1) (np_std im2) s im1 im2 0 /\ c1 = im1 /\ c2 = im2) \/
       (~ bright_overlap (np_std im1) (np_std im2) s im1 im2 0 /\ shape c1 = shape im1 /\ shape c2 = shape im2 /\
        forall i, inb (shape im1) i -> cut_pixel (np_std im1) s (get im1 i) (get c1 i) /\ cut_pixel (np_std im2) s (get im2 i) (get c2 i))) /\
    method c1 c2 = Ok [x; y] /\ io_wcs W h = Ok w /\
    (* what is returned: pixel offsets, world offsets, and the uncut images *)
    l = [FNum x; FNum y; FNum (match w_cd w with Some _ => x * scale_of w AX1 | None => 0 end);
                         FNum (match w_cd w with Some _ => y * scale_of w AX2 | None => 0 end)]
        ++ (if rimg then [FImg im1; FImg im2] else []).
Proof.
  intros W f1 f2 ri sc m l. unfold cross_correlation_shifts_FITS.
  destruct (load_header W f1) as [h|] eqn:E1; cbn [bind]; [|discriminate]. destruct (io_reproject W f2 h) as [im2|] eqn:E2; cbn [bind]; [|discriminate].
  destruct (load_data W f1) as [[im1|]|] eqn:E3; cbn [bind]; try discriminate. destruct (same_shape im1 im2) eqn:ES; cbn [negb]; [|discriminate]. apply same_shape_true in ES.
  destruct (sigma_cut_images (np_std im1) (np_std im2) im1 im2 sc) as [a b] eqn:EC. destruct (m a b) as [r|] eqn:EM; cbn [bind]; [|discriminate].
  destruct r as [|x [|y [|z r]]]; try discriminate. destruct (io_wcs W h) as [w|] eqn:EW; cbn [bind]; [|discriminate].
  intros Q. exists h, im1, im2, a, b, x, y, w. split; [first [reflexivity|exact E1]|]. split; [first [reflexivity|exact E3]|]. split; [first [reflexivity|exact E2]|]. split; [exact ES|].
  assert (F : (sc = None \/ sc = Some 0 -> a = im1 /\ b = im2) /\
    (forall s, sc = Some s -> s <> 0 ->
       (bright_overlap (np_std im1) (np_std im2) s im1 im2 0 /\ a = im1 /\ b = im2) \/
       (~ bright_overlap (np_std im1) (np_std im2) s im1 im2 0 /\ shape a = shape im1 /\ shape b = shape im2 /\
        forall i, inb (shape im1) i -> cut_pixel (np_std im1) s (get im1 i) (get a i) /\ cut_pixel (np_std im2) s (get im2 i) (get b i)))).
  { unfold sigma_cut_images in EC. destruct (truthy sc) as [s|] eqn:ET.
    - assert (H : sc = Some s /\ s <> 0) by (unfold truthy in ET; destruct sc as [s0|]; [|discriminate]; destruct (Req_EM_T s0 0); [discriminate|]; injection ET as <-; auto). destruct H as [-> Hs].
      assert (B := common_bright im1 im2 (np_std im1) (np_std im2) s ES). destruct (Req_EM_T _ 0) as [Z0|Z0]; injection EC as <- <-.
      + rewrite Z0 in B. split; [intros [Q'|Q']; [discriminate|injection Q' as ->; contradiction]|]. intros s' Q' _. injection Q' as <-. left. auto.
      + split; [intros [Q'|Q']; [discriminate|injection Q' as ->; contradiction]|]. intros s' Q' _. injection Q' as <-. right. split.
        * intros B'. apply Z0. apply (bright_unique _ _ _ _ _ _ _ B B').
        * split; [reflexivity|]. split; [reflexivity|]. intros i Hi. split; apply cut_below_pixel.
    - injection EC as <- <-. split; [auto|]. intros s -> Hs. unfold truthy in ET. destruct (Req_EM_T s 0); [contradiction|discriminate]. }
  split; [apply F|]. split; [apply F|]. split; [exact EM|]. split; [first [reflexivity|exact EW]|].
  unfold scale_of. destruct (w_cd w) as [[[[c11 c12] c21] c22]|]; injection Q as <-; cbn [app coord fst snd]; [|reflexivity].
  replace (x * c11 + 0 * c12) with (x * c11) by ring. replace (0 * c21 + y * c22) with (y * c22) by ring. reflexivity.
Qed.
Print Assumptions C67_result.

Theorem C67_shape_mismatch_raises :
  forall W f1 f2 rimg sigma_cut method h im1 im2,
  load_header W f1 = Ok h -> load_data W f1 = Ok (Some im1) -> io_reproject W f2 h = Ok im2 -> shape im1 <> shape im2 ->
  cross_correlation_shifts_FITS W f1 f2 rimg sigma_cut method = Raise ValueError.
Proof.
  intros W f1 f2 ri sc m h im1 im2 H1 H2 H3 H4. unfold cross_correlation_shifts_FITS. rewrite H1. cbn [bind]. rewrite H3. cbn [bind]. rewrite H2. cbn [bind].
  destruct (same_shape im1 im2) eqn:E; [apply same_shape_true in E; contradiction|]. reflexivity.
Qed.
Print Assumptions C67_shape_mismatch_raises.

(** the noise estimate: root mean square deviation; NaN as soon as one pixel is NaN *)
Lemma any_nan_true a i : inb (shape a) i -> get a i = NaN -> any isnan a = true.
Proof. intros Hi H. unfold any. apply existsN_spec. exists i. rewrite H. auto. Qed.
Theorem C67_noise :
  forall a, pos_shape (shape a) ->
  ((exists i, inb (shape a) i /\ get a i = NaN) -> np_std a = NaN) /\
  (forall v, (forall i, inb (shape a) i -> get a i = Fin (v i)) ->
     exists t, np_std a = Fin t /\ 0 <= t /\
       let N := IZR (prodZ (shape a)) in let mean := sumNR (shape a) v / N in
       t * t = sumNR (shape a) (fun i => (v i - mean) * (v i - mean)) / N).
Proof.
  intros a Hp. split.
  - intros [i [Hi H]]. unfold np_std. rewrite (any_nan_true a i); auto.
  - intros v Hv. assert (A : any isnan a = false).
    { destruct (any isnan a) eqn:E; [|reflexivity]. unfold any in E. apply existsN_spec in E. destruct E as [i [Hi E]]. rewrite Hv in E by auto. discriminate. }
    unfold np_std. rewrite A. eexists; split; [reflexivity|]. unfold std. cbv zeta.
    assert (E : sumNR (shape a) (fun i => nan0 (get a i)) = sumNR (shape a) v) by (apply sumNR_ext; intros i Hi; rewrite Hv by auto; reflexivity). rewrite E.
    assert (E' : forall m, sumNR (shape a) (fun i => (nan0 (get a i) - m) ^ 2) = sumNR (shape a) (fun i => (v i - m) * (v i - m))) by (intros m; apply sumNR_ext; intros i Hi; rewrite Hv by auto; cbn [nan0]; ring). rewrite E'.
    split; [apply sqrt_pos|]. apply sqrt_sqrt. apply Rmult_le_pos.
    + apply sumNR_nonneg. intros i Hi. apply Rle_0_sqr.
    + left. apply Rinv_0_lt_compat. apply IZR_lt. apply prodZ_pos. exact Hp.
Qed.
Print Assumptions C67_noise.
(** so one masked pixel in either image switches sigma_cut off silently *)
Theorem C67_masked_pixel_disables_sigma_cut :
  forall W f1 f2 rimg s method h im1 im2 i,
  load_header W f1 = Ok h -> load_data W f1 = Ok (Some im1) -> io_reproject W f2 h = Ok im2 -> shape im1 = shape im2 ->
  inb (shape im1) i -> get im1 i = NaN \/ get im2 i = NaN ->
  cross_correlation_shifts_FITS W f1 f2 rimg (Some s) method = cross_correlation_shifts_FITS W f1 f2 rimg None method.
Proof.
  intros W f1 f2 ri s m h im1 im2 i H1 H2 H3 H4 Hi HN. unfold cross_correlation_shifts_FITS. rewrite H1. cbn [bind]. rewrite H3. cbn [bind]. rewrite H2. cbn [bind].
  assert (C : sigma_cut_images (np_std im1) (np_std im2) im1 im2 (Some s) = sigma_cut_images (np_std im1) (np_std im2) im1 im2 None).
  { unfold sigma_cut_images at 2. cbn [truthy]. unfold sigma_cut_images. destruct (truthy (Some s)) as [s'|]; [|reflexivity].
    assert (Z0 : common_signal (cut_below im1 (num_scale s' (np_std im1))) (cut_below im2 (num_scale s' (np_std im2))) = 0).
    { apply (bright_unique _ _ _ _ _ _ _ (common_bright im1 im2 (np_std im1) (np_std im2) s' H4)).
      exists (fun _ => 0). split; [symmetry; apply sumNR_const0; auto|]. intros k Hk. right. split; [|reflexivity].
      destruct HN as [HN|HN]; [left|right].
      - unfold np_std. rewrite (any_nan_true im1 i) by auto. destruct (get im1 k); cbn; auto.
      - unfold np_std. rewrite (any_nan_true im2 i) by (auto; rewrite <- H4; auto). destruct (get im2 k); cbn; auto. }
    rewrite Z0. destruct (Req_EM_T 0 0); [reflexivity|contradiction]. }
  rewrite C. reflexivity.
Qed.
Print Assumptions C67_masked_pixel_disables_sigma_cut.

(** with the default method on an image and its roll (even sizes): pixel offsets are the roll, world offsets the roll times
    the diagonal of the CD matrix *)
Theorem C67_roll_recovered :
  forall e W f1 f2 rimg im1 im2 h w ny nx dy dx,
  load_header W f1 = Ok h -> load_data W f1 = Ok (Some im1) -> io_reproject W f2 h = Ok im2 -> io_wcs W h = Ok w ->
  is_roll im1 im2 ny nx dy dx -> size_ok e false ny nx -> Z.even ny = true -> Z.even nx = true ->
  interior_shift ny dy -> interior_shift nx dx -> no_symmetry ny nx (prep true im1 ny nx) ->
  cross_correlation_shifts_FITS W f1 f2 rimg None (call_without_error e MCrossCorrelation) =
    Ok ([FNum (IZR dx); FNum (IZR dy); FNum (match w_cd w with Some _ => IZR dx * scale_of w AX1 | None => 0 end);
                                       FNum (match w_cd w with Some _ => IZR dy * scale_of w AX2 | None => 0 end)]
        ++ (if rimg then [FImg im1; FImg im2] else [])).
Proof.
  intros e W f1 f2 ri im1 im2 h w ny nx dy dx H1 H2 H3 H4 HR Hh Ey Ex Iy Ix Hn.
  unfold cross_correlation_shifts_FITS. rewrite H1. cbn [bind]. rewrite H3. cbn [bind]. rewrite H2. cbn [bind].
  assert (ES : same_shape im1 im2 = true) by (apply same_shape_true; destruct HR as [-> [-> _]]; reflexivity). rewrite ES. cbn [negb].
  unfold sigma_cut_images. cbn [truthy call_without_error].
  rewrite (C45_roll_recovered_even e None im1 im2 None None true 1 false false ny nx dy dx); auto; try exact I. cbn [bind]. rewrite H4. cbn [bind].
  unfold scale_of. destruct (w_cd w) as [[[[c11 c12] c21] c22]|]; cbn [coord fst snd]; [|reflexivity].
  replace (IZR dx * c11 + 0 * c12) with (IZR dx * c11) by ring. replace (0 * c21 + IZR dy * c22) with (IZR dy * c22) by ring. reflexivity.
Qed.
Print Assumptions C67_roll_recovered.
Definition dotim (a b : Z) : arr num := mk2 6 8 (fun i j => Fin (if ((i =? a) && (j =? b))%Z then 1 else 0)).
Example C67_nonvacuous :
  cross_correlation_shifts_FITS (demo_world (dotim 2 3) (dotim 3 1)) (SStr "a.fits") (SStr "b.fits") true None
    (call_without_error (Env false (2 ^ 30) false (fun _ _ => NaN)) MCrossCorrelation) =
  Ok [FNum (-2); FNum 1; FNum (-2 * -2); FNum (1 * 3); FImg (dotim 2 3); FImg (dotim 3 1)].
Proof.
  assert (R : is_roll (dotim 2 3) (dotim 3 1) 6 8 1 (-2)).
  { split; [reflexivity|]. split; [reflexivity|]. intros y x Hy Hx. cbn [dotim mk2 get]. f_equal.
    assert (Y : ((y =? 3) = ((y - 1) mod 6 =? 2))%Z).
    { destruct (Z.eqb_spec y 3) as [->|N]; [reflexivity|]. symmetry. apply Z.eqb_neq. intros E. apply N. Z.to_euclidean_division_equations; lia. }
    assert (X : ((x =? 1) = ((x - -2) mod 8 =? 3))%Z).
    { destruct (Z.eqb_spec x 1) as [->|N]; [reflexivity|]. symmetry. apply Z.eqb_neq. intros E. apply N. Z.to_euclidean_division_equations; lia. }
    rewrite Y, X. reflexivity. }
  rewrite (C67_roll_recovered (Env false (2 ^ 30) false (fun _ _ => NaN)) (demo_world (dotim 2 3) (dotim 3 1)) (SStr "a.fits") (SStr "b.fits") true (dotim 2 3) (dotim 3 1) demo_hdr
    (Wcs (fun p => p) (Some (-2, 0, 0, 3)) (1, 1)) 6 8 1 (-2)); auto; try reflexivity; try (right; cbn; lia); try (unfold interior_shift; cbn; lia).
  apply dot_no_symmetry_zm; [lia|lia|lra].
Qed.

(** *** C68: load_header, load_data, get_cd *)
Theorem C68_load_header :
  forall W,
  (forall h, load_header W (SHeader h) = Ok h) /\ (forall h d, load_header W (SHDU h d) = Ok h) /\
  forall s, (forall h, s <> SHeader h) -> (forall h d, s <> SHDU h d) ->
    (* a FITS file *)
    (forall h, io_getheader W s = Ok h -> load_header W s = Ok h) /\
    (* not a readable FITS file: a text file with the header *)
    (forall h, io_getheader W s = Raise IOError -> io_fromtextfile W s = Ok h -> load_header W s = Ok h) /\
    (* neither: the header's text *)
    (io_getheader W s = Raise IOError -> io_fromtextfile W s = Raise IOError -> load_header W s = io_fromstring W s) /\
    (* any other exception ends the search *)
    (forall x, x <> IOError -> io_getheader W s = Raise x -> load_header W s = Raise x) /\
    (forall x, x <> IOError -> io_getheader W s = Raise IOError -> io_fromtextfile W s = Raise x -> load_header W s = Raise x).
Proof.
  intros W. split; [reflexivity|]. split; [reflexivity|]. intros s N1 N2. destruct s; try solve [exfalso; eapply N1; eauto | exfalso; eapply N2; eauto];
  (split; [|split; [|split; [|split]]]; unfold load_header; intros; repeat match goal with H : _ = _ |- _ => rewrite H end; try reflexivity; destruct x; try reflexivity; congruence).
Qed.
Print Assumptions C68_load_header.

Theorem C68_load_data :
  forall W,
  (* an array is returned as it is, whatever the file system holds *)
  (forall a, load_data W (SArr a) = Ok (Some a)) /\
  forall s, (forall a, s <> SArr a) ->
    (forall a, io_getdata W s = Ok a -> load_data W s = Ok (Some a)) /\
    (forall x, x <> IOError -> io_getdata W s = Raise x -> load_data W s = Raise x) /\
    (* fits.getdata refuses it: an HDU's array, a list's first HDU's data, otherwise None without an exception *)
    (io_getdata W s = Raise IOError ->
       (forall h a, s = SHDU h (Some a) -> load_data W s = Ok (Some a)) /\
       (forall h, s = SHDU h None -> load_data W s = Ok None) /\
       (forall h d l, s = SHDUList ((h, d) :: l) -> load_data W s = Ok d) /\
       (s = SHDUList [] -> load_data W s = Raise IndexError) /\
       (forall h, s = SHeader h -> load_data W s = Ok None) /\
       (forall t, s = SStr t -> load_data W s = Ok None)).
Proof.
  intros W. split; [reflexivity|]. intros s N. split; [|split].
  - intros a H. destruct s; try (exfalso; eapply N; reflexivity); unfold load_data; rewrite H; reflexivity.
  - intros x Nx H. destruct s; try (exfalso; eapply N; reflexivity); unfold load_data; rewrite H; destruct x; try reflexivity; congruence.
  - intros H. repeat split; intros; subst; unfold load_data; rewrite H; reflexivity.
Qed.
Print Assumptions C68_load_data.
(** consequently a missing or unreadable image file is reported by match_fits as an AttributeError *)
Theorem C68_missing_file_reported_as_attribute_error :
  forall W name f2 sigma_cut mad h im2,
  load_header W (SStr name) = Ok h -> io_getdata W (SStr name) = Raise IOError -> io_reproject W f2 h = Ok im2 ->
  match_fits W (SStr name) f2 None sigma_cut mad = Raise AttributeError.
Proof.
  intros W name f2 sc mad h im2 H1 H2 H3. unfold match_fits, project_to_header. rewrite H1. cbn [bind].
  unfold load_data. rewrite H2. cbn [bind]. rewrite H3. reflexivity.
Qed.
Print Assumptions C68_missing_file_reported_as_attribute_error.

Theorem C68_get_cd :
  forall w,
  (forall a n, n = (match a with AX1 => 1 | AX2 => 2 end)%Z ->
     (w_cd w = None -> get_cd w n = Ok (Some (scale_of w a))) /\
     (w_cd w <> None -> scale_of w a <> 0 -> get_cd w n = Ok (Some (scale_of w a))) /\
     (* the gap: a zero CD element is reported as None *)
     (w_cd w <> None -> scale_of w a = 0 -> get_cd w n = Ok None)) /\
  (* axis numbers out of range: 0 and -1 silently mean the second and the first axis, all others raise *)
  get_cd w 0 = get_cd w 2 /\ get_cd w (-1) = get_cd w 1 /\
  (forall n, (n < -1 \/ 2 < n)%Z -> get_cd w n = Raise IndexError).
Proof.
  intros w. split; [|split; [|split]].
  - intros a n ->. unfold get_cd, scale_of, coord. destruct (w_cd w) as [[[[c11 c12] c21] c22]|]; destruct a; cbn [Z.sub Z.add Z.opp Z.pos_sub index2 Z.eqb orb bind fst snd];
    (split; [intros; try discriminate; try reflexivity|]); (split; intros; try congruence); unfold index2; cbn; destruct (Req_EM_T _ 0); try congruence; try contradiction.
  - unfold get_cd. destruct (w_cd w) as [[[[c11 c12] c21] c22]|]; reflexivity.
  - unfold get_cd. destruct (w_cd w) as [[[[c11 c12] c21] c22]|]; reflexivity.
  - intros n Hn. assert (E : forall A (a b : A), index2 (n - 1) a b = Raise IndexError).
    { intros A a b. unfold index2. destruct (Z.eqb_spec (n - 1) 0); [lia|]. destruct (Z.eqb_spec (n - 1) (-2)); [lia|]. destruct (Z.eqb_spec (n - 1) 1); [lia|]. destruct (Z.eqb_spec (n - 1) (-1)); [lia|]. reflexivity. }
    unfold get_cd. destruct (w_cd w) as [[[[c11 c12] c21] c22]|]; rewrite E; reflexivity.
Qed.
Print Assumptions C68_get_cd.
Example C68_nonvacuous : get_cd (Wcs (fun p => p) (Some (-2, 0, 0, 3)) (1, 1)) 2 = Ok (Some 3) /\ get_cd (Wcs (fun p => p) None (5, 1)) 1 = Ok (Some 5) /\
  get_cd (Wcs (fun p => p) (Some (0, 1, 1, 0)) (1, 1)) 1 = Ok None /\
  load_data (demo_world (demo_img 1 1) (demo_img 1 1)) (SStr "a.fits") = Ok (Some (demo_img 1 1)).
Proof. unfold get_cd, index2. cbn. repeat split; destruct (Req_EM_T _ 0); try reflexivity; try lra. Qed.

(** *** C76: which shift functions can be the register_method *)
Theorem C76_register_fits_default_fails_refuted :
  forall e has_fftw W f1 f2 errfile rerr rimg rshift rhdr sigma_cut im1 im2 h,
  match_fits W f1 f2 None sigma_cut true = Ok (im1, im2, h) ->
  (forall f, errfile = Some f -> exists a, io_reproject W f h = Ok a) ->
  register_fits has_fftw W f1 f2 errfile rerr (call_with_error e MIterzoom) rimg rshift rhdr sigma_cut = Raise NameError.
Proof.
  intros e hf W f1 f2 ef re ri rs rh sc im1 im2 h M EF. unfold register_fits. rewrite M. cbn [bind].
  destruct ef as [f|]; [destruct (EF f eq_refl) as [a Ea]; unfold project_to_header; rewrite Ea|]; cbn [bind call_with_error];
    rewrite C44_chi2_shift_iterzoom_always_fails_refuted; reflexivity.
Qed.
Print Assumptions C76_register_fits_default_fails_refuted.
Theorem C76_other_methods_rejected_refuted :
  forall e has_fftw W f1 f2 rerr rimg rshift rhdr sigma_cut im1 im2 h ny nx,
  match_fits W f1 f2 None sigma_cut true = Ok (im1, im2, h) -> shape im2 = [ny; nx] ->
  register_fits has_fftw W f1 f2 None rerr (call_with_error e MRegisterImages) rimg rshift rhdr sigma_cut = Raise TypeError /\
  register_fits has_fftw W f1 f2 None rerr (call_with_error e MCrossCorrelation) rimg rshift rhdr sigma_cut = Raise TypeError.
Proof.
  intros e hf W f1 f2 re ri rs rh sc im1 im2 h ny nx M S. unfold register_fits. rewrite M. cbn [bind call_with_error]. split; [reflexivity|].
  destruct (C65_match_fits _ _ _ _ _ _ _ _ _ M) as [i1 [i2 [_ [_ [_ [ES _]]]]]]. apply same_shape_true in ES. rewrite ES. cbn [negb]. rewrite S. reflexivity.
Qed.
Print Assumptions C76_other_methods_rejected_refuted.
Theorem C76_cross_correlation_shifts_FITS_methods_refuted :
  forall e W f1 f2 rimg sigma_cut h im1 im2,
  load_header W f1 = Ok h -> load_data W f1 = Ok (Some im1) -> io_reproject W f2 h = Ok im2 -> shape im1 = shape im2 ->
  cross_correlation_shifts_FITS W f1 f2 rimg sigma_cut (call_without_error e MRegisterImages) = Raise TypeError /\
  cross_correlation_shifts_FITS W f1 f2 rimg sigma_cut (call_without_error e MIterzoom) = Raise NameError.
Proof.
  intros e W f1 f2 ri sc h im1 im2 H1 H2 H3 H4. unfold cross_correlation_shifts_FITS. rewrite H1. cbn [bind]. rewrite H3. cbn [bind]. rewrite H2. cbn [bind].
  apply same_shape_true in H4. rewrite H4. cbn [negb]. destruct (sigma_cut_images _ _ _ _ _) as [c1 c2]. cbn [call_without_error bind].
  rewrite C44_chi2_shift_iterzoom_always_fails_refuted. split; reflexivity.
Qed.
Print Assumptions C76_cross_correlation_shifts_FITS_methods_refuted.
Example C76_nonvacuous : exists c1 c2, match_fits (demo_world (demo_img 1 1) (demo_img 1 1)) (SStr "a.fits") (SStr "b.fits") None None true = Ok (c1, c2, demo_hdr) /\ shape c2 = [4; 4]%Z.
Proof. exists (demo_img 1 1), (demo_img 1 1). split; reflexivity. Qed.
