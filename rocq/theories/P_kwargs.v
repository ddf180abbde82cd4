(** C101, C102: options given as further keyword arguments *)
From Coq Require Import ZArith Lia List Reals Lra Bool String.
From Coquelicot Require Import Complex.
From Verif Require Import Base NDim DFT Kernel Num Py M_shift M_convolve M_correlate M_xcorr M_chi2 M_fits M_fits2 M_kwargs Arg P_fits2.
Import ListNotations.
Open Scope R_scope.

(** the option [name] has the value [v] in the call: given as such, or not given and v is the default *)
Definition option_is (K : kwargs) (name : string) (v : pyval) (v_is_default : Prop) : Prop :=
  In (name, v) K \/ (~ In name (map fst K) /\ v_is_default).
Definition us_val (u : usarg) : pyval := match u with UAuto => VStr "auto" | UInt z => VInt z | UFloat r => VFloat r end.
Definition boundary_val (b : boundary) : pyval :=
  match b with BNone => VNone | BFill => VStr "fill" | BWrap => VStr "wrap" | BExtend => VStr "extend" | BOther => VStr "mirror" end.

Lemma kwget_in K k v : NoDup (map fst K) -> In (k, v) K -> kwget K k = Some v.
Proof.
  induction K as [|[k' v'] K IH]; cbn; [tauto|]. intros ND [E|H].
  - injection E as -> ->. rewrite String.eqb_refl. reflexivity.
  - inversion ND as [|? ? N1 N2]; subst. destruct (String.eqb_spec k' k) as [->|]; [|auto]. exfalso. apply N1. apply (in_map fst) in H. exact H.
Qed.
Lemma kwget_notin K k : ~ In k (map fst K) -> kwget K k = None.
Proof. induction K as [|[k' v'] K IH]; cbn; [auto|]. intros H. destruct (String.eqb_spec k' k); [subst; tauto|]. apply IH. tauto. Qed.
Lemma kwget_opt K k v d : NoDup (map fst K) -> option_is K k v d -> kwget K k = Some v \/ (kwget K k = None /\ d).
Proof. intros ND [H|[H D]]; [left; apply kwget_in; auto|right; split; auto; apply kwget_notin; auto]. Qed.
Lemma mem_spec k l : mem k l = true <-> In k l.
Proof. unfold mem. rewrite existsb_exists. split; [intros [x [H E]]; apply String.eqb_eq in E; subst; auto|intros H; exists k; split; auto; apply String.eqb_refl]. Qed.

Lemma opt_us_is K k u : NoDup (map fst K) -> option_is K k (us_val u) (u = UAuto) -> opt_us K k = Ok u.
Proof. intros ND H. unfold opt_us. destruct (kwget_opt _ _ _ _ ND H) as [->|[-> ->]]; [destruct u; reflexivity|reflexivity]. Qed.
Lemma opt_boundary_is K k b d : NoDup (map fst K) -> option_is K k (boundary_val b) (b = d) -> opt_boundary K k d = Ok b.
Proof. intros ND H. unfold opt_boundary. destruct (kwget_opt _ _ _ _ ND H) as [->|[-> ->]]; [destruct b; reflexivity|reflexivity]. Qed.
Lemma opt_int_is K k z d : NoDup (map fst K) -> option_is K k (VInt z) (z = d) -> opt_int K k d = Ok z.
Proof. intros ND H. unfold opt_int. destruct (kwget_opt _ _ _ _ ND H) as [->|[-> ->]]; reflexivity. Qed.
Lemma opt_num_is K k z d : NoDup (map fst K) -> option_is K k (VFloat z) (z = d) -> opt_num K k d = Ok z.
Proof. intros ND H. unfold opt_num. destruct (kwget_opt _ _ _ _ ND H) as [->|[-> ->]]; reflexivity. Qed.
Lemma opt_bool_is K k z d : NoDup (map fst K) -> option_is K k (VBool z) (z = d) -> opt_bool K k d = Ok z.
Proof. intros ND H. unfold opt_bool. destruct (kwget_opt _ _ _ _ ND H) as [->|[-> ->]]; reflexivity. Qed.

Lemma bind_kw_ok taken free K : (forall k, In k (map fst K) -> ~ In k taken /\ In k free) -> bind_kw taken free false K = Ok tt.
Proof.
  intros H. unfold bind_kw. assert (E1 : existsb (fun c => mem (fst c) taken) K = false).
  { destruct (existsb _ K) eqn:E; [|reflexivity]. apply existsb_exists in E. destruct E as [c [Hc E]]. apply mem_spec in E. destruct (H (fst c) (in_map fst _ _ Hc)); tauto. }
  assert (E2 : forallb (fun c => mem (fst c) free) K = true).
  { apply forallb_forall. intros c Hc. apply mem_spec. apply (H (fst c) (in_map fst _ _ Hc)). }
  rewrite E1, E2. reflexivity.
Qed.
Lemma bind_kw_taken taken free v K k : In k (map fst K) -> In k taken -> bind_kw taken free v K = Raise TypeError.
Proof.
  intros H T. unfold bind_kw. assert (E1 : existsb (fun c => mem (fst c) taken) K = true).
  { apply existsb_exists. apply in_map_iff in H. destruct H as [c [<- Hc]]. exists c. split; auto. apply mem_spec; auto. }
  rewrite E1. reflexivity.
Qed.
Lemma bind_kw_unexpected taken free K k : In k (map fst K) -> ~ In k free -> bind_kw taken free false K = Raise TypeError.
Proof.
  intros H T. unfold bind_kw. assert (E1 : forallb (fun c => mem (fst c) free) K = false).
  { destruct (forallb _ K) eqn:E; [|reflexivity]. rewrite forallb_forall in E. apply in_map_iff in H. destruct H as [c [<- Hc]]. specialize (E c Hc). apply mem_spec in E. tauto. }
  rewrite E1. destruct (existsb _ K); reflexivity.
Qed.
Lemma bind_kw_var taken free K : (forall k, In k (map fst K) -> ~ In k taken) -> bind_kw taken free true K = Ok tt.
Proof.
  intros H. unfold bind_kw. destruct (existsb (fun c => mem (fst c) taken) K) eqn:E; [|reflexivity].
  apply existsb_exists in E. destruct E as [c [Hc E]]. apply mem_spec in E. destruct (H (fst c) (in_map fst _ _ Hc)). exact E.
Qed.

(** chi2_shift(return_error=True, return_chi2array=False) returns four numbers *)
Lemma chi2_shift_four e im1 im2 err u b nt np zm nf vb ms mn ah l :
  chi2_shift e im1 im2 err u b nt np zm nf vb true false ms mn ah = Ok l -> exists x y ex ey, l = [RNum x; RNum y; RNum ex; RNum ey].
Proof.
  unfold chi2_shift, chi2_shift_tail. destruct (chi2n_map _ _ _ _ _ _ _ _ _ _ _) as [r|]; cbn [bind]; [|discriminate].
  destruct r; try discriminate. destruct (shape im1) as [|ylen [|xlen [|]]]; try discriminate.
  destruct (argmin2 ylen xlen _) as [ymax xmax]. destruct (match u with UAuto => _ | UInt _ => _ | UFloat _ => _ end) as [[usfac os]|]; cbn [bind]; [|discriminate].
  destruct (M_zoom.zoomnd _ _ _ _ _ _ _ _ _ _) as [[[xo|] [za|za]]|]; cbn [bind]; try discriminate.
  destruct os as [|s1 [|s2 [|]]]; try discriminate. destruct ((s1 <=? 0)%Z || (s2 <=? 0)%Z); [discriminate|].
  destruct (verbose_check vb s1 s2 _); cbn [bind]; [|discriminate]. destruct (chi2map_to_errors _ _ _ _ _) as [[[[a1 a2] a3] a4]|]; cbn [bind]; [|discriminate].
  destruct (argmin2 s1 s2 _) as [i j]. intros Q. injection Q as <-. cbn [List.app]. eauto.
Qed.

(** *** C101: options for the shift function reach it, when there is no error image *)
Theorem C101_options_reach_chi2_shift :
  forall e has_fftw W reproject_options reproject f1 f2 rerr rimg rshift rhdr sigma_cut K u b nt np zm nf vb ms mn ah,
  NoDup (map fst K) ->
  (forall k, In k (map fst K) -> In k ["upsample_factor"; "boundary"; "nthreads"; "use_numpy_fft"; "zeromean"; "nfitted"; "verbose"; "max_auto_size"; "max_nsig"; "allow_huge"]%string) ->
  option_is K "upsample_factor" (us_val u) (u = UAuto) -> option_is K "boundary" (boundary_val b) (b = BWrap) ->
  option_is K "nthreads" (VInt nt) (nt = 1%Z) -> option_is K "use_numpy_fft" (VBool np) (np = false) ->
  option_is K "zeromean" (VBool zm) (zm = false) -> option_is K "nfitted" (VFloat nf) (nf = 2) -> option_is K "verbose" (VBool vb) (vb = false) ->
  option_is K "max_auto_size" (VInt ms) (ms = 512%Z) -> option_is K "max_nsig" (VFloat mn) (mn = 11 / 10) -> option_is K "allow_huge" (VBool ah) (ah = false) ->
  register_fits_kw has_fftw W reproject_options reproject f1 f2 None rerr (chi2_shift_kw e) rimg rshift rhdr sigma_cut K =
  register_fits has_fftw W f1 f2 None rerr
    (fun im1 im2 err => let! l := chi2_shift e im1 im2 (err_of err) u b nt np zm nf vb true false ms mn ah in Ok (numbers l))
    rimg rshift rhdr sigma_cut.
Proof.
  intros e hf W ro rp f1 f2 re ri rs rh sc K u b nt np zm nf vb ms mn ah ND HK O1 O2 O3 O4 O5 O6 O7 O8 O9 O10.
  assert (NH : forall k, ~ In k ["upsample_factor"; "boundary"; "nthreads"; "use_numpy_fft"; "zeromean"; "nfitted"; "verbose"; "max_auto_size"; "max_nsig"; "allow_huge"]%string -> ~ In k (map fst K)) by (intros k N H; apply N; auto).
  assert (M : match_fits_kw W f1 f2 sc K = match_fits W f1 f2 None sc true).
  { unfold match_fits_kw. rewrite bind_kw_var.
    - cbn [bind]. unfold opt_hdr, opt_bool. rewrite !kwget_notin; [reflexivity| |]; apply NH; cbn; intuition discriminate.
    - intros k H. apply HK in H. cbn in H |- *. intuition (subst; discriminate). }
  assert (CK : forall im1 im2 err, chi2_shift_kw e im1 im2 err K = chi2_shift e im1 im2 (err_of err) u b nt np zm nf vb true false ms mn ah).
  { intros im1 im2 err. unfold chi2_shift_kw. rewrite bind_kw_ok.
    2:{ intros k H. apply HK in H. split; cbn in H |- *; intuition (subst; discriminate). }
    cbn [bind]. rewrite (opt_us_is K _ u) by auto. cbn [bind]. rewrite (opt_boundary_is K _ b) by auto. cbn [bind].
    rewrite (opt_int_is K "nthreads" nt) by auto. cbn [bind]. rewrite (opt_bool_is K "use_numpy_fft" np) by auto. cbn [bind].
    rewrite (opt_bool_is K "zeromean" zm) by auto. cbn [bind]. rewrite (opt_num_is K "nfitted" nf) by auto. cbn [bind].
    rewrite (opt_bool_is K "verbose" vb) by auto. cbn [bind].
    assert (RA : opt_bool K "return_chi2array" false = Ok false) by (unfold opt_bool; rewrite kwget_notin; [reflexivity|apply NH; cbn; intuition discriminate]). rewrite RA. cbn [bind].
    rewrite (opt_int_is K "max_auto_size" ms) by auto. cbn [bind]. rewrite (opt_num_is K "max_nsig" mn) by auto. cbn [bind].
    rewrite (opt_bool_is K "allow_huge" ah) by auto. cbn [bind]. reflexivity. }
  unfold register_fits_kw, register_fits. rewrite M. destruct (match_fits W f1 f2 None sc true) as [[[im1 im2] h]|]; cbn [bind]; [|reflexivity].
  rewrite CK. cbn [err_of]. destruct (chi2_shift e im1 im2 ErrNone u b nt np zm nf vb true false ms mn ah) as [l|] eqn:EC; cbn [bind]; [|reflexivity].
  apply chi2_shift_four in EC. destruct EC as [x [y [ex [ey ->]]]]. cbn [numbers flat_map List.app]. reflexivity.
Qed.
Print Assumptions C101_options_reach_chi2_shift.

(** nor can return_chi2array: chi2_shift then returns more than the four values register_fits unpacks, and the call fails after all
    the work has been done *)
Lemma chi2_shift_more e im1 im2 err u b nt np zm nf vb ms mn ah l :
  chi2_shift e im1 im2 err u b nt np zm nf vb true true ms mn ah = Ok l -> exists x y ex ey mx my c, l = [RNum x; RNum y; RNum ex; RNum ey; RMaps mx my c].
Proof.
  unfold chi2_shift, chi2_shift_tail. destruct (chi2n_map _ _ _ _ _ _ _ _ _ _ _) as [r|]; cbn [bind]; [|discriminate].
  destruct r; try discriminate. destruct (shape im1) as [|ylen [|xlen [|]]]; try discriminate.
  destruct (argmin2 ylen xlen _) as [ymax xmax]. destruct (match u with UAuto => _ | UInt _ => _ | UFloat _ => _ end) as [[usfac os]|]; cbn [bind]; [|discriminate].
  destruct (M_zoom.zoomnd _ _ _ _ _ _ _ _ _ _) as [[[xo|] [za|za]]|]; cbn [bind]; try discriminate.
  destruct os as [|s1 [|s2 [|]]]; try discriminate. destruct ((s1 <=? 0)%Z || (s2 <=? 0)%Z); [discriminate|].
  destruct (verbose_check vb s1 s2 _); cbn [bind]; [|discriminate]. destruct (chi2map_to_errors _ _ _ _ _) as [[[[a1 a2] a3] a4]|]; cbn [bind]; [|discriminate].
  destruct (argmin2 s1 s2 _) as [i j]. intros Q. injection Q as <-. cbn [List.app]. do 7 eexists. reflexivity.
Qed.
Theorem C101_return_chi2array_refuted :
  forall e has_fftw W reproject_options reproject f1 f2 errfile rerr rimg rshift rhdr sigma_cut K,
  NoDup (map fst K) -> In ("return_chi2array"%string, VBool true) K ->
  (forall l, register_fits_kw has_fftw W reproject_options reproject f1 f2 errfile rerr (chi2_shift_kw e) rimg rshift rhdr sigma_cut K <> Ok l) /\
  (forall im1 im2 h l, errfile = None -> match_fits_kw W f1 f2 sigma_cut K = Ok (im1, im2, h) -> chi2_shift_kw e im1 im2 None K = Ok l ->
   register_fits_kw has_fftw W reproject_options reproject f1 f2 errfile rerr (chi2_shift_kw e) rimg rshift rhdr sigma_cut K = Raise ValueError).
Proof.
  intros e hf W ro rp f1 f2 ef re ri rs rh sc K ND HK.
  assert (G : kwget K "return_chi2array" = Some (VBool true)) by (apply kwget_in; auto).
  assert (T : forall a b er l, chi2_shift_kw e a b er K = Ok l -> exists x y ex ey mx my c, l = [RNum x; RNum y; RNum ex; RNum ey; RMaps mx my c]).
  { intros a b er l. unfold chi2_shift_kw. destruct (bind_kw _ _ _ K); cbn [bind]; [|discriminate].
    destruct (opt_us _ _); cbn [bind]; [|discriminate]. destruct (opt_boundary _ _ _); cbn [bind]; [|discriminate].
    destruct (opt_int K "nthreads" 1); cbn [bind]; [|discriminate]. destruct (opt_bool K "use_numpy_fft" false); cbn [bind]; [|discriminate].
    destruct (opt_bool K "zeromean" false); cbn [bind]; [|discriminate]. destruct (opt_num K "nfitted" 2); cbn [bind]; [|discriminate].
    destruct (opt_bool K "verbose" false); cbn [bind]; [|discriminate].
    assert (R : opt_bool K "return_chi2array" false = Ok true) by (unfold opt_bool; rewrite G; reflexivity). rewrite R. cbn [bind].
    destruct (opt_int K "max_auto_size" 512); cbn [bind]; [|discriminate]. destruct (opt_num K "max_nsig" (11 / 10)); cbn [bind]; [|discriminate].
    destruct (opt_bool K "allow_huge" false); cbn [bind]; [|discriminate]. apply chi2_shift_more. }
  unfold register_fits_kw. split.
  - intros l. destruct (match_fits_kw W f1 f2 sc K) as [[[im1 im2] h]|]; cbn [bind]; [|discriminate].
    destruct (match ef with Some f => _ | None => _ end) as [er|]; cbn [bind]; [|discriminate].
    destruct (chi2_shift_kw e im1 im2 er K) as [r|] eqn:E; cbn [bind]; [|discriminate]. apply T in E. destruct E as [x [y [ex [ey [mx [my [c ->]]]]]]]. discriminate.
  - intros im1 im2 h l -> M E. rewrite M. cbn [bind]. rewrite E. cbn [bind]. apply T in E. destruct E as [x [y [ex [ey [mx [my [c ->]]]]]]]. reflexivity.
Qed.
Print Assumptions C101_return_chi2array_refuted.

(** the options of match_fits cannot be used through register_fits: the call never returns *)
Theorem C101_header_and_use_mad_std_refuted :
  forall e has_fftw W reproject_options reproject f1 f2 errfile rerr rimg rshift rhdr sigma_cut K method,
  method = chi2_shift_kw e \/ method = register_images_kw ->
  In "header"%string (map fst K) \/ In "use_mad_std"%string (map fst K) ->
  (forall l, register_fits_kw has_fftw W reproject_options reproject f1 f2 errfile rerr method rimg rshift rhdr sigma_cut K <> Ok l) /\
  (errfile = None -> (exists m, match_fits_kw W f1 f2 sigma_cut K = Ok m) ->
   register_fits_kw has_fftw W reproject_options reproject f1 f2 errfile rerr method rimg rshift rhdr sigma_cut K = Raise TypeError).
Proof.
  intros e hf W ro rp f1 f2 ef re ri rs rh sc K m Hm HK.
  assert (T : forall a b er, m a b er K = Raise TypeError).
  { intros a b er. destruct Hm as [-> | ->]; [|reflexivity]. unfold chi2_shift_kw.
    destruct HK as [H|H]; rewrite (bind_kw_unexpected _ _ _ _ H) by (cbn; intuition discriminate); reflexivity. }
  unfold register_fits_kw. split.
  - intros l. destruct (match_fits_kw W f1 f2 sc K) as [[[im1 im2] h]|]; cbn [bind]; [|discriminate].
    destruct (match ef with Some f => _ | None => _ end) as [er|]; cbn [bind]; [|discriminate]. rewrite T. discriminate.
  - intros -> [[[im1 im2] h] ->]. cbn [bind]. rewrite T. reflexivity.
Qed.
Print Assumptions C101_header_and_use_mad_std_refuted.

(** with an error image every option must be one that reproject_interp knows as well: an option that is not makes the call fail,
    whatever the shift function *)
Theorem C101_options_with_errfile_refuted :
  forall has_fftw W reproject_options reproject f1 f2 errfile rerr rimg rshift rhdr sigma_cut K method k,
  In k (map fst K) -> ~ In k reproject_options ->
  (forall l, register_fits_kw has_fftw W reproject_options reproject f1 f2 (Some errfile) rerr method rimg rshift rhdr sigma_cut K <> Ok l) /\
  ((exists m, match_fits_kw W f1 f2 sigma_cut K = Ok m) ->
   register_fits_kw has_fftw W reproject_options reproject f1 f2 (Some errfile) rerr method rimg rshift rhdr sigma_cut K = Raise TypeError).
Proof.
  intros hf W ro rp f1 f2 ef re ri rs rh sc K m k HK HN.
  assert (T : forall h, project_to_header_kw ro rp ef h K = Raise TypeError).
  { intros h. unfold project_to_header_kw. rewrite (bind_kw_unexpected [] ro K k HK HN). unfold bind_kw. destruct (existsb _ K); reflexivity. }
  unfold register_fits_kw. split.
  - intros l. destruct (match_fits_kw W f1 f2 sc K) as [[[im1 im2] h]|]; cbn [bind]; [|discriminate]. rewrite T. discriminate.
  - intros [[[im1 im2] h] ->]. cbn [bind]. rewrite T. reflexivity.
Qed.
Print Assumptions C101_options_with_errfile_refuted.

(** in particular not even upsample_factor can be given together with an error image (reproject_interp's parameters) *)
Definition reproject_interp_options : list string :=
  ["shape_out"; "hdu_in"; "order"; "independent_celestial_slices"; "output_array"; "output_footprint"; "return_footprint";
   "block_size"; "parallel"; "return_type"; "dask_method"; "roundtrip_coords"; "non_reprojected_dims"]%string.
Corollary C101_no_chi2_shift_option_with_errfile :
  forall e has_fftw W reproject f1 f2 errfile rerr rimg rshift rhdr sigma_cut K l,
  register_fits_kw has_fftw W reproject_interp_options reproject f1 f2 (Some errfile) rerr (chi2_shift_kw e) rimg rshift rhdr sigma_cut K = Ok l -> K = [].
Proof.
  intros e hf W rp f1 f2 ef re ri rs rh sc K l H. destruct K as [|[k v] K]; [reflexivity|exfalso].
  destruct (in_dec string_dec k reproject_interp_options) as [I|N].
  - unfold register_fits_kw in H. destruct (match_fits_kw W f1 f2 sc ((k, v) :: K)) as [[[im1 im2] h]|]; cbn [bind] in H; [|discriminate].
    destruct (project_to_header_kw _ _ _ _ _) as [a|]; cbn [bind] in H; [|discriminate].
    unfold chi2_shift_kw in H. rewrite (bind_kw_unexpected _ chi2_shift_options ((k, v) :: K) k) in H; [discriminate|cbn; auto|].
    cbn in I |- *. intuition (subst; discriminate).
  - refine (proj1 (C101_options_with_errfile_refuted hf W reproject_interp_options rp f1 f2 ef re ri rs rh sc _ _ k _ N) l H). cbn. auto.
Qed.
Print Assumptions C101_no_chi2_shift_option_with_errfile.

Example C101_nonvacuous :
  let K := [("zeromean", VBool true); ("upsample_factor", VInt 10)]%string in
  NoDup (map fst K) /\ option_is K "upsample_factor" (us_val (UInt 10)) (UInt 10 = UAuto) /\ option_is K "boundary" (boundary_val BWrap) (BWrap = BWrap) /\
  option_is K "zeromean" (VBool true) (true = false) /\
  (exists m, match_fits_kw (demo_world (demo_img 1 1) (demo_img 2 3)) (SStr "a") (SStr "b") None [("use_mad_std"%string, VBool false)] = Ok m) /\
  (exists m, match_fits_kw (demo_world (demo_img 1 1) (demo_img 2 3)) (SStr "a") (SStr "b") None [("upsample_factor"%string, VInt 10)] = Ok m) /\
  ~ In "upsample_factor"%string reproject_interp_options.
Proof.
  cbv zeta. split; [repeat constructor; cbn; intuition discriminate|]. split; [left; cbn; auto|]. split; [right; split; [cbn; intuition discriminate|reflexivity]|].
  split; [left; cbn; auto|]. split; [eexists; reflexivity|]. split; [eexists; reflexivity|]. cbn; intuition discriminate.
Qed.

(** *** C102: options of correlate2d and of cross_correlation_shifts *)
Theorem C102_modelled_options_work :
  forall has_fftw gb astropy_options im1 im2 K b nt np ah,
  NoDup (map fst K) -> (forall k, In k (map fst K) -> In k ["boundary"; "nthreads"; "use_numpy_fft"; "allow_huge"]%string) ->
  In "allow_huge"%string astropy_options -> (2 <= List.length (shape im2))%nat ->
  option_is K "boundary" (boundary_val b) (b = BWrap) -> option_is K "nthreads" (VInt nt) (nt = 1%Z) ->
  option_is K "use_numpy_fft" (VBool np) (np = false) -> option_is K "allow_huge" (VBool ah) (ah = false) ->
  correlate2d_kw has_fftw gb astropy_options im1 im2 K = correlate2d has_fftw gb im1 im2 b nt np ah.
Proof.
  intros hf gb ao im1 im2 K b nt np ah ND HK HA HL O1 O2 O3 O4. unfold correlate2d_kw. rewrite bind_kw_var.
  2:{ intros k H. apply HK in H. cbn in H |- *. intuition (subst; discriminate). }
  cbn [bind]. unfold rev2 at 1. destruct (shape im2) as [|ny [|nx rest]]; cbn in HL; try lia. cbn [bind].
  rewrite bind_kw_ok.
  2:{ intros k H. apply in_map_iff in H. destruct H as [c [<- Hc]]. apply filter_In in Hc. destruct Hc as [Hc F].
      assert (In (fst c) (map fst K)) by (apply in_map; auto). apply HK in H. cbn in H. apply negb_true_iff in F.
      destruct H as [H|[H|[H|[H|[]]]]]; rewrite <- H in F |- *; try (cbn in F; discriminate). split; [cbn; intuition discriminate|exact HA]. }
  cbn [bind]. rewrite (opt_boundary_is K _ b) by auto. cbn [bind]. rewrite (opt_int_is K "nthreads" nt) by auto. cbn [bind].
  rewrite (opt_bool_is K "use_numpy_fft" np) by auto. cbn [bind]. rewrite (opt_bool_is K "allow_huge" ah) by auto. cbn [bind].
  assert (F : forallb (fun c => mem (fst c) ["boundary"; "nthreads"; "use_numpy_fft"; "allow_huge"]%string) K = true).
  { apply forallb_forall. intros c Hc. apply mem_spec. apply HK. apply in_map; auto. }
  rewrite F. reflexivity.
Qed.
Print Assumptions C102_modelled_options_work.

(** the options "pad" and "fftshift" of the docstring are unknown to convolve_fft; the NaN and normalisation options of convolve_fft
    are already given by correlate2d: TypeError in every case *)
Theorem C102_documented_options_refuted :
  forall has_fftw gb astropy_options im1 im2 K k,
  (2 <= List.length (shape im2))%nat -> In k (map fst K) ->
  (In k ["pad"; "fftshift"; "ignore_nan"]%string /\ ~ In k astropy_options) \/ In k ["nan_treatment"; "normalize_kernel"; "fftn"; "ifftn"]%string ->
  correlate2d_kw has_fftw gb astropy_options im1 im2 K = Raise TypeError.
Proof.
  intros hf gb ao im1 im2 K k HL HK H. unfold correlate2d_kw.
  destruct (bind_kw ["im1"; "im2"]%string [] true K) as [u|x] eqn:E; cbn [bind].
  2:{ unfold bind_kw in E. destruct (existsb _ K); [injection E as <-; reflexivity|discriminate]. }
  unfold rev2. destruct (shape im2) as [|ny [|nx rest]]; cbn in HL; try lia. cbn [bind].
  set (rest' := filter _ K).
  assert (I : In k (map fst rest')).
  { apply in_map_iff in HK. destruct HK as [c [<- Hc]]. apply in_map. apply filter_In. split; [exact Hc|]. apply negb_true_iff.
    destruct (mem (fst c) _) eqn:M; [|reflexivity]. apply mem_spec in M. cbn in M, H. exfalso.
    destruct M as [M|[M|[M|[]]]]; rewrite <- M in H; intuition discriminate. }
  destruct H as [[_ N]|T].
  - rewrite (bind_kw_unexpected _ _ _ _ I N). reflexivity.
  - rewrite (bind_kw_taken _ ao false rest' k I); [reflexivity|]. cbn in T |- *. tauto.
Qed.
Print Assumptions C102_documented_options_refuted.

(** cross_correlation_shifts hands its further options to correlate2d *)
Theorem C102_cross_correlation_options :
  forall e astropy_options has_agpy im1 im2 er1 er2 maxoff gaussfit rerr zeromean K,
  shape im1 = shape im2 -> (2 <= List.length (shape im2))%nat ->
  ~ In "image1"%string (map fst K) -> ~ In "image2"%string (map fst K) ->
  (forall b nt np ah,
     NoDup (map fst K) -> (forall k, In k (map fst K) -> In k ["boundary"; "nthreads"; "use_numpy_fft"; "allow_huge"]%string) -> In "allow_huge"%string astropy_options ->
     option_is K "boundary" (boundary_val b) (b = BWrap) -> option_is K "nthreads" (VInt nt) (nt = 1%Z) ->
     option_is K "use_numpy_fft" (VBool np) (np = false) -> option_is K "allow_huge" (VBool ah) (ah = false) ->
     cross_correlation_shifts_kw e astropy_options has_agpy im1 im2 er1 er2 maxoff gaussfit rerr zeromean K =
     cross_correlation_shifts e has_agpy im1 im2 er1 er2 maxoff gaussfit rerr zeromean b nt np ah) /\
  (forall k, In k (map fst K) ->
     (In k ["pad"; "fftshift"; "ignore_nan"]%string /\ ~ In k astropy_options) \/ In k ["nan_treatment"; "normalize_kernel"; "fftn"; "ifftn"]%string ->
     cross_correlation_shifts_kw e astropy_options has_agpy im1 im2 er1 er2 maxoff gaussfit rerr zeromean K = Raise TypeError).
Proof.
  intros e ao ag im1 im2 er1 er2 mo gf re zm K HS HL N1 N2.
  assert (B : bind_kw ["image1"; "image2"]%string [] true K = Ok tt) by (apply bind_kw_var; intros k H; cbn; intros [<-|[<-|[]]]; tauto).
  unfold cross_correlation_shifts_kw. rewrite B. cbn [bind]. destruct (list_eq_dec Z.eq_dec (shape im1) (shape im2)); [|contradiction]. cbn [negb]. split.
  - intros b nt np ah ND HK HA O1 O2 O3 O4.
    rewrite (C102_modelled_options_work (e_fftw e) (e_gb e) ao _ _ K b nt np ah); auto; [|cbn [fin_arr shape]; rewrite HS; exact HL].
    rewrite (opt_boundary_is K _ b) by auto. rewrite (opt_int_is K "nthreads" nt) by auto. rewrite (opt_bool_is K "use_numpy_fft" np) by auto. rewrite (opt_bool_is K "allow_huge" ah) by auto.
    destruct (correlate2d _ _ _ _ _ _ _ _) as [cc|x] eqn:EC; cbn [bind]; [reflexivity|].
    unfold cross_correlation_shifts. destruct (list_eq_dec Z.eq_dec (shape im1) (shape im2)); [|contradiction]. cbn [negb].
    cbv zeta. rewrite EC. reflexivity.
  - intros k Hk H. rewrite (C102_documented_options_refuted (e_fftw e) (e_gb e) ao _ _ K k); auto. cbn [fin_arr shape]. rewrite HS. exact HL.
Qed.
Print Assumptions C102_cross_correlation_options.

(** images of different shapes are refused whatever the options *)
Theorem C102_different_shapes_raise :
  forall e astropy_options has_agpy im1 im2 er1 er2 maxoff gaussfit rerr zeromean K,
  ~ In "image1"%string (map fst K) -> ~ In "image2"%string (map fst K) -> shape im1 <> shape im2 ->
  cross_correlation_shifts_kw e astropy_options has_agpy im1 im2 er1 er2 maxoff gaussfit rerr zeromean K = Raise ValueError.
Proof.
  intros e ao ag im1 im2 er1 er2 mo gf re zm K N1 N2 HS.
  assert (B : bind_kw ["image1"; "image2"]%string [] true K = Ok tt) by (apply bind_kw_var; intros k H; cbn; intros [<-|[<-|[]]]; tauto).
  unfold cross_correlation_shifts_kw. rewrite B. cbn [bind]. destruct (list_eq_dec Z.eq_dec (shape im1) (shape im2)); [contradiction|]. reflexivity.
Qed.
Print Assumptions C102_different_shapes_raise.

Example C102_nonvacuous :
  let K := [("nthreads", VInt 4); ("boundary", VStr "fill")]%string in
  NoDup (map fst K) /\ option_is K "boundary" (boundary_val BFill) (BFill = BWrap) /\ option_is K "allow_huge" (VBool false) (false = false) /\
  ~ In "pad"%string ["crop"; "return_fft"; "fft_pad"; "psf_pad"; "min_wt"; "allow_huge"; "fill_value"; "mask"; "preserve_nan"; "complex_dtype"; "dealias"; "normalization_zero_tol"]%string.
Proof. cbv zeta. split; [repeat constructor; cbn; intuition discriminate|]. split; [left; cbn; auto|]. split; [right; split; [cbn; intuition discriminate|reflexivity]|]. cbn; intuition discriminate. Qed.

(** truth values: for an option that is used as a condition, None, a number and a boolean with the same truth value are equivalent *)
Definition truth_options : list string := ["use_numpy_fft"; "zeromean"; "verbose"; "return_chi2array"; "allow_huge"; "use_mad_std"]%string.
Definition truth (v : pyval) (b : bool) : Prop :=
  v = VBool b \/ (v = VNone /\ b = false) \/ (exists z, v = VInt z /\ (b = true <-> z <> 0%Z)).
Definition same_truth (K K' : kwargs) : Prop :=
  Forall2 (fun c c' => fst c = fst c' /\ (snd c = snd c' \/ (In (fst c) truth_options /\ exists b, truth (snd c) b /\ snd c' = VBool b))) K K'.
Lemma same_truth_keys K K' : same_truth K K' -> map fst K = map fst K'.
Proof. induction 1 as [|c c' K K' [E _] H IH]; cbn; [reflexivity|]. rewrite E, IH. reflexivity. Qed.
Lemma same_truth_get K K' k : same_truth K K' ->
  kwget K k = kwget K' k \/ (In k truth_options /\ exists v b, kwget K k = Some v /\ truth v b /\ kwget K' k = Some (VBool b)).
Proof.
  induction 1 as [|[n v] [n' v'] K K' [E D] H IH]; cbn in *; [auto|]. subst n'. destruct (String.eqb_spec n k) as [->|]; [|exact IH].
  destruct D as [->|[T [b [B ->]]]]; [auto|]. right. split; [exact T|]. exists v, b. auto.
Qed.
Lemma existsb_keys (f : string -> bool) K K' : map fst K = map fst K' -> existsb (fun c : string * pyval => f (fst c)) K = existsb (fun c : string * pyval => f (fst c)) K'.
Proof. revert K'. induction K as [|c K IH]; intros [|c' K']; cbn; try discriminate; [auto|]. intros E. injection E as E1 E2. rewrite E1, (IH _ E2). reflexivity. Qed.
Lemma forallb_keys (f : string -> bool) K K' : map fst K = map fst K' -> forallb (fun c : string * pyval => f (fst c)) K = forallb (fun c : string * pyval => f (fst c)) K'.
Proof. revert K'. induction K as [|c K IH]; intros [|c' K']; cbn; try discriminate; [auto|]. intros E. injection E as E1 E2. rewrite E1, (IH _ E2). reflexivity. Qed.
Lemma filter_keys (f : string -> bool) K K' : map fst K = map fst K' ->
  map fst (filter (fun c : string * pyval => f (fst c)) K) = map fst (filter (fun c : string * pyval => f (fst c)) K').
Proof.
  revert K'. induction K as [|c K IH]; intros [|c' K']; cbn; try discriminate; [auto|]. intros E. injection E as E1 E2. rewrite E1.
  destruct (f (fst c')); cbn; rewrite (IH _ E2); [rewrite E1|]; reflexivity.
Qed.
Lemma bind_kw_keys taken free v K K' : map fst K = map fst K' -> bind_kw taken free v K = bind_kw taken free v K'.
Proof.
  intros E. unfold bind_kw. rewrite (existsb_keys (fun s => mem s taken) K K' E), (forallb_keys (fun s => mem s free) K K' E). reflexivity.
Qed.
Lemma opt_bool_truth K K' k d : same_truth K K' -> opt_bool K k d = opt_bool K' k d.
Proof.
  intros H. unfold opt_bool. destruct (same_truth_get K K' k H) as [->|[_ [v [b [-> [T ->]]]]]]; [reflexivity|].
  destruct T as [->|[[-> ->]|[z [-> T]]]]; [reflexivity|reflexivity|]. destruct (Z.eqb_spec z 0) as [->|N]; cbn; destruct b; try reflexivity; exfalso.
  - apply T; auto.
  - assert (false = true) by (apply T; auto). discriminate.
Qed.
Lemma kwget_same K K' k : same_truth K K' -> ~ In k truth_options -> kwget K k = kwget K' k.
Proof. intros H N. destruct (same_truth_get K K' k H) as [E|[T _]]; [exact E|tauto]. Qed.

Ltac not_truth := cbn; intros Q; repeat (destruct Q as [Q|Q]; [discriminate|]); exact Q.
Theorem C101_truth_values :
  forall e K K', same_truth K K' ->
  (forall im1 im2 err, chi2_shift_kw e im1 im2 err K = chi2_shift_kw e im1 im2 err K') /\
  (forall W f1 f2 sigma_cut, match_fits_kw W f1 f2 sigma_cut K = match_fits_kw W f1 f2 sigma_cut K') /\
  (forall has_fftw W reproject_options reproject f1 f2 rerr rimg rshift rhdr sigma_cut,
     register_fits_kw has_fftw W reproject_options reproject f1 f2 None rerr (chi2_shift_kw e) rimg rshift rhdr sigma_cut K =
     register_fits_kw has_fftw W reproject_options reproject f1 f2 None rerr (chi2_shift_kw e) rimg rshift rhdr sigma_cut K').
Proof.
  intros e K K' H. pose proof (same_truth_keys _ _ H) as HK.
  assert (A : forall im1 im2 err, chi2_shift_kw e im1 im2 err K = chi2_shift_kw e im1 im2 err K').
  { intros im1 im2 err. unfold chi2_shift_kw. rewrite (bind_kw_keys _ _ _ K K' HK). destruct (bind_kw _ _ _ _); [|reflexivity]. cbn [bind].
    unfold opt_us, opt_boundary, opt_int, opt_num. rewrite !(opt_bool_truth K K') by exact H.
    rewrite (kwget_same K K' "upsample_factor"), (kwget_same K K' "boundary"), (kwget_same K K' "nthreads"), (kwget_same K K' "nfitted"),
      (kwget_same K K' "max_auto_size"), (kwget_same K K' "max_nsig") by (exact H || not_truth). reflexivity. }
  assert (B : forall W f1 f2 sigma_cut, match_fits_kw W f1 f2 sigma_cut K = match_fits_kw W f1 f2 sigma_cut K').
  { intros. unfold match_fits_kw. rewrite (bind_kw_keys _ _ _ K K' HK). unfold opt_hdr. rewrite (opt_bool_truth K K') by exact H.
    rewrite (kwget_same K K' "header") by (exact H || not_truth). reflexivity. }
  split; [exact A|split; [exact B|]]. intros. unfold register_fits_kw. rewrite B. destruct (match_fits_kw _ _ _ _ _) as [[[i1 i2] h]|]; [|reflexivity].
  cbn [bind]. rewrite A. reflexivity.
Qed.
Print Assumptions C101_truth_values.
Theorem C102_truth_values :
  forall K K', same_truth K K' ->
  (forall has_fftw gb astropy_options im1 im2, correlate2d_kw has_fftw gb astropy_options im1 im2 K = correlate2d_kw has_fftw gb astropy_options im1 im2 K') /\
  (forall e astropy_options has_agpy im1 im2 er1 er2 maxoff gaussfit rerr zeromean,
     cross_correlation_shifts_kw e astropy_options has_agpy im1 im2 er1 er2 maxoff gaussfit rerr zeromean K =
     cross_correlation_shifts_kw e astropy_options has_agpy im1 im2 er1 er2 maxoff gaussfit rerr zeromean K').
Proof.
  intros K K' H. pose proof (same_truth_keys _ _ H) as HK.
  assert (A : forall has_fftw gb astropy_options im1 im2, correlate2d_kw has_fftw gb astropy_options im1 im2 K = correlate2d_kw has_fftw gb astropy_options im1 im2 K').
  { intros. unfold correlate2d_kw. rewrite (bind_kw_keys _ _ _ K K' HK).
    rewrite (bind_kw_keys _ _ _ _ _ (filter_keys (fun s => negb (mem s ["boundary"; "nthreads"; "use_numpy_fft"]%string)) K K' HK)).
    rewrite (forallb_keys (fun s => mem s ["boundary"; "nthreads"; "use_numpy_fft"; "allow_huge"]%string) K K' HK).
    unfold opt_boundary, opt_int. rewrite !(opt_bool_truth K K') by exact H.
    rewrite (kwget_same K K' "boundary"), (kwget_same K K' "nthreads") by (exact H || not_truth). reflexivity. }
  split; [exact A|]. intros. unfold cross_correlation_shifts_kw. rewrite (bind_kw_keys _ _ _ K K' HK), A.
  unfold opt_boundary, opt_int. rewrite !(opt_bool_truth K K') by exact H.
  rewrite (kwget_same K K' "boundary"), (kwget_same K K' "nthreads") by (exact H || not_truth). reflexivity.
Qed.
Print Assumptions C102_truth_values.
Example C101_truth_nonvacuous :
  same_truth [("zeromean"%string, VInt 1); ("verbose"%string, VNone); ("nthreads"%string, VInt 4)]
             [("zeromean"%string, VBool true); ("verbose"%string, VBool false); ("nthreads"%string, VInt 4)].
Proof.
  unfold same_truth. repeat apply Forall2_cons; try apply Forall2_nil; cbn; (split; [reflexivity|]).
  - right. split; [tauto|]. exists true. split; [right; right; exists 1%Z; split; [reflexivity|split; auto; lia]|reflexivity].
  - right. split; [tauto|]. exists false. split; [right; left; auto|reflexivity].
  - left. reflexivity.
Qed.
