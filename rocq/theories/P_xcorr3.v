(** Properties C48-C50, C71, C72: second_derivative; interface, invariances and error estimate of cross_correlation_shifts *)
From Coq Require Import ZArith Lia List Reals Lra Bool.
From Coquelicot Require Import Complex.
From Verif Require Import Base NDim DFT Kernel Py M_fast_ffts M_shift M_convolve M_correlate Arg M_chi2 M_xcorr
  Sum2 Spec2 Spec3 L_correlate L_chi2 L_chi2shift L_fshift L_xcorr P_chi2errors P_xcorr P_xcorr2.
Import ListNotations.
Open Scope R_scope.

(** *** C48 *)
(** image value, 0 outside *)
Definition padded (a : arr R) (ny nx y x : Z) : R :=
  if ((0 <=? y) && (y <? ny) && (0 <=? x) && (x <? nx))%Z then get a [y; x] else 0.

Lemma padded_in a ny nx y x : (0 <= y < ny)%Z -> (0 <= x < nx)%Z -> padded a ny nx y x = get a [y; x].
Proof.
  intros Hy Hx. unfold padded. destruct (Z.leb_spec 0 y); [|lia]. destruct (Z.ltb_spec y ny); [|lia].
  destruct (Z.leb_spec 0 x); [|lia]. destruct (Z.ltb_spec x nx); [|lia]. reflexivity.
Qed.
Lemma padded_out a ny nx y x : (y < 0 \/ ny <= y \/ x < 0 \/ nx <= x)%Z -> padded a ny nx y x = 0.
Proof.
  intros H. unfold padded. destruct (Z.leb_spec 0 y); [|reflexivity]. destruct (Z.ltb_spec y ny); [|reflexivity].
  destruct (Z.leb_spec 0 x); [|reflexivity]. destruct (Z.ltb_spec x nx); [lia|reflexivity].
Qed.
Lemma mod_succ_lt n i : (0 <= i < n - 1)%Z -> ((i + 1) mod n = i + 1)%Z.  Proof. intros. apply Z.mod_small. lia. Qed.

Theorem C48_second_derivative :
  forall (image : arr R) ny nx, shape image = [ny; nx] -> (0 < ny)%Z -> (0 < nx)%Z ->
  exists dxx dyy dxy, second_derivative image = Ok (dxx, dyy, dxy) /\
    shape dxx = [ny; nx] /\ shape dyy = [ny; nx] /\ shape dxy = [ny; nx] /\
    forall y x, (0 <= y < ny)%Z -> (0 <= x < nx)%Z ->
      let z := padded image ny nx in
      get dxx [y; x] = z y (x + 1)%Z - 2 * z y x + z y (x - 1)%Z /\
      get dyy [y; x] = z (y + 1)%Z x - 2 * z y x + z (y - 1)%Z x /\
      get dxy [y; x] = - ((z (y + 1)%Z (x + 1)%Z - z (y + 1)%Z (x - 1)%Z - z (y - 1)%Z (x + 1)%Z + z (y - 1)%Z (x - 1)%Z) / 4).
Proof.
  intros image ny nx Hs Hy Hx. unfold second_derivative. rewrite Hs. do 3 eexists. split; [reflexivity|].
  split; [reflexivity|]. split; [reflexivity|]. split; [reflexivity|]. intros y x HY HX. set (z := padded image ny nx).
  set (im := g2 image).
  assert (R1 : forall a i j, (0 <= i < ny)%Z -> (0 <= j < nx)%Z -> zcol 0 (roll1 1 a ny nx) i j = if (j =? 0)%Z then 0 else a i (j - 1)%Z).
  { intros a i j Hi Hj. unfold zcol, roll1. destruct (Z.eqb_spec j 0); [reflexivity|]. rewrite Z.mod_small by lia. reflexivity. }
  assert (L1 : forall a i j, (0 <= i < ny)%Z -> (0 <= j < nx)%Z -> zcol (nx - 1) (roll1 (-1) a ny nx) i j = if (j =? nx - 1)%Z then 0 else a i (j + 1)%Z).
  { intros a i j Hi Hj. unfold zcol, roll1. destruct (Z.eqb_spec j (nx - 1)); [reflexivity|]. rewrite Z.mod_small by lia. reflexivity. }
  assert (D1 : forall a i j, (0 <= i < ny)%Z -> (0 <= j < nx)%Z -> zrow 0 (roll0 1 a ny nx) i j = if (i =? 0)%Z then 0 else a (i - 1)%Z j).
  { intros a i j Hi Hj. unfold zrow, roll0. destruct (Z.eqb_spec i 0); [reflexivity|]. rewrite Z.mod_small by lia. reflexivity. }
  assert (U1 : forall a i j, (0 <= i < ny)%Z -> (0 <= j < nx)%Z -> zrow (ny - 1) (roll0 (-1) a ny nx) i j = if (i =? ny - 1)%Z then 0 else a (i + 1)%Z j).
  { intros a i j Hi Hj. unfold zrow, roll0. destruct (Z.eqb_spec i (ny - 1)); [reflexivity|]. rewrite Z.mod_small by lia. reflexivity. }
  assert (I : forall i j, (0 <= i < ny)%Z -> (0 <= j < nx)%Z -> im i j = z i j) by (intros; unfold z; rewrite padded_in; auto).
  assert (O : forall i j, (i < 0 \/ ny <= i \/ j < 0 \/ nx <= j)%Z -> z i j = 0) by (intros; apply padded_out; auto).
  cbn [mk2 get]. fold im.
  assert (Zr : zcol 0 (roll1 1 im ny nx) y x = z y (x - 1)%Z).
  { rewrite R1 by auto. destruct (Z.eqb_spec x 0); [rewrite O by lia; reflexivity|apply I; lia]. }
  assert (Zl : zcol (nx - 1) (roll1 (-1) im ny nx) y x = z y (x + 1)%Z).
  { rewrite L1 by auto. destruct (Z.eqb_spec x (nx - 1)); [rewrite O by lia; reflexivity|apply I; lia]. }
  assert (Zd : zrow 0 (roll0 1 im ny nx) y x = z (y - 1)%Z x).
  { rewrite D1 by auto. destruct (Z.eqb_spec y 0); [rewrite O by lia; reflexivity|apply I; lia]. }
  assert (Zu : zrow (ny - 1) (roll0 (-1) im ny nx) y x = z (y + 1)%Z x).
  { rewrite U1 by auto. destruct (Z.eqb_spec y (ny - 1)); [rewrite O by lia; reflexivity|apply I; lia]. }
  split; [rewrite Zr, Zl, I by auto; ring|]. split; [rewrite Zu, Zd, I by auto; ring|].
  assert (Zur : zcol 0 (roll1 1 (zrow (ny - 1) (roll0 (-1) im ny nx)) ny nx) y x = z (y + 1)%Z (x - 1)%Z).
  { rewrite R1 by auto. destruct (Z.eqb_spec x 0); [rewrite O by lia; reflexivity|]. rewrite U1 by (auto; lia).
    destruct (Z.eqb_spec y (ny - 1)); [rewrite O by lia; reflexivity|apply I; lia]. }
  assert (Zdl : zcol (nx - 1) (roll1 (-1) (zrow 0 (roll0 1 im ny nx)) ny nx) y x = z (y - 1)%Z (x + 1)%Z).
  { rewrite L1 by auto. destruct (Z.eqb_spec x (nx - 1)); [rewrite O by lia; reflexivity|]. rewrite D1 by (auto; lia).
    destruct (Z.eqb_spec y 0); [rewrite O by lia; reflexivity|apply I; lia]. }
  assert (Zdr : zrow 0 (roll0 1 (zcol 0 (roll1 1 im ny nx)) ny nx) y x = z (y - 1)%Z (x - 1)%Z).
  { rewrite D1 by auto. destruct (Z.eqb_spec y 0); [rewrite O by lia; reflexivity|]. rewrite R1 by (auto; lia).
    destruct (Z.eqb_spec x 0); [rewrite O by lia; reflexivity|apply I; lia]. }
  assert (Zul : zrow (ny - 1) (roll0 (-1) (zcol (nx - 1) (roll1 (-1) im ny nx)) ny nx) y x = z (y + 1)%Z (x + 1)%Z).
  { rewrite U1 by auto. destruct (Z.eqb_spec y (ny - 1)); [rewrite O by lia; reflexivity|]. rewrite L1 by (auto; lia).
    destruct (Z.eqb_spec x (nx - 1)); [rewrite O by lia; reflexivity|apply I; lia]. }
  rewrite Zur, Zdl, Zdr, Zul. field.
Qed.
Print Assumptions C48_second_derivative.

Example C48_nonvacuous : exists dxx dyy dxy, second_derivative (mk2 3 3 (fun y x => IZR (x * y))) = Ok (dxx, dyy, dxy) /\
  get dxy [1; 1]%Z = -1.
Proof. do 3 eexists. split; [reflexivity|]. cbv - [Rplus Rmult Rminus Rdiv Rinv IZR]. lra. Qed.

(** *** C49 *)
(** some overlap correlates positively, or every overlap negatively *)
Definition has_signal (ny nx : Z) (f g : Z -> Z -> R) : Prop :=
  (exists s t, 0 < ccf ny nx f g s t) \/ (forall s t, ccf ny nx f g s t < 0).

Lemma cmap_onto ny nx f g s t : (0 < ny)%Z -> (0 < nx)%Z ->
  exists k l, (0 <= k < ny)%Z /\ (0 <= l < nx)%Z /\ cmap ny nx f g k l = ccf ny nx f g s t / IZR (ny * nx).
Proof.
  intros Hy Hx. exists (((ny - 1) / 2 - s) mod ny)%Z, (((nx - 1) / 2 - t) mod nx)%Z.
  split; [apply Z.mod_pos_bound; auto|]. split; [apply Z.mod_pos_bound; auto|]. unfold cmap. f_equal.
  assert (G : forall n c r, (0 < n)%Z -> ((c - (c - r) mod n - r) mod n = 0)%Z).
  { intros n c r Hn. replace (c - (c - r) mod n - r)%Z with ((c - r) - (c - r) mod n)%Z by lia. rewrite Zminus_mod_idemp_r, Z.sub_diag. apply Z.mod_0_l. lia. }
  apply ccf_mod; auto.
Qed.

Lemma signal_nonzero ny nx f g : (0 < ny)%Z -> (0 < nx)%Z -> has_signal ny nx f g ->
  let '(y, x) := argmax2 ny nx (cmap ny nx f g) in cmap ny nx f g y x <> 0.
Proof.
  intros Hy Hx H. assert (S := argmin2_spec ny nx (fun i j => - cmap ny nx f g i j) Hy Hx). fold (argmax2 ny nx (cmap ny nx f g)) in S.
  destruct (argmax2 ny nx (cmap ny nx f g)) as [y x]. destruct S as [_ [_ [S _]]]. cbn [fst snd] in S.
  assert (N := size_pos ny nx Hy Hx). assert (0 < / IZR (ny * nx)) by (apply Rinv_0_lt_compat; auto).
  destruct H as [[s [t H]]|H].
  - destruct (cmap_onto ny nx f g s t Hy Hx) as [k [l [Hk [Hl E]]]]. specialize (S k l Hk Hl).
    assert (0 < cmap ny nx f g k l) by (rewrite E; unfold Rdiv; apply Rmult_lt_0_compat; auto). lra.
  - unfold cmap. specialize (H ((ny - 1) / 2 - y)%Z ((nx - 1) / 2 - x)%Z). apply Rlt_not_eq. unfold Rdiv.
    assert (0 < - ccf ny nx f g ((ny - 1) / 2 - y) ((nx - 1) / 2 - x) * / IZR (ny * nx)) by (apply Rmult_lt_0_compat; lra). lra.
Qed.

Theorem C49_maxoff_always_raises :
  forall e agpy im1 im2 er1 er2 maxoff gaussfit ret_err zeromean nthreads use_np allow_huge ny nx,
  shape im1 = [ny; nx] -> shape im2 = [ny; nx] -> (0 < ny)%Z -> (0 < nx)%Z -> size_ok e allow_huge ny nx ->
  errim_ok er1 ny nx -> errim_ok er2 ny nx ->
  has_signal ny nx (prep zeromean im1 ny nx) (prep zeromean im2 ny nx) ->
  cross_correlation_shifts e agpy im1 im2 er1 er2 (Some maxoff) gaussfit ret_err zeromean BWrap nthreads use_np allow_huge = Raise TypeError.
Proof.
  intros e agpy im1 im2 er1 er2 mo gf re zm nt np huge ny nx H1 H2 Hy Hx Hh He1 He2 Hs.
  rewrite (xcorr_eq e agpy im1 im2 er1 er2 (Some mo) gf re zm nt np huge ny nx) by auto.
  set (f := prep zm im1 ny nx) in *. set (g := prep zm im2 ny nx) in *.
  change (fun k l => _) with (cmap ny nx f g). unfold xtail. assert (Z := signal_nonzero ny nx f g Hy Hx Hs).
  destruct (argmax2 ny nx (cmap ny nx f g)) as [y x]. destruct (Req_EM_T (cmap ny nx f g y x) 0); [contradiction|reflexivity].
Qed.
Print Assumptions C49_maxoff_always_raises.
Example C49_nonvacuous : has_signal 4 4 (prep false (dot 4 4 1 1) 4 4) (prep false (dot 4 4 2 2) 4 4).
Proof.
  left. exists 1%Z, 1%Z. rewrite (ccf_delta 4 4 _ _ 1 1) by (try lia; intros; apply dot_prep). rewrite dot_prep. simpl. lra.
Qed.

(** *** C50 *)
Theorem C50_shape_mismatch :
  forall e agpy im1 im2 er1 er2 maxoff gaussfit ret_err zeromean b nthreads use_np allow_huge,
  shape im1 <> shape im2 ->
  cross_correlation_shifts e agpy im1 im2 er1 er2 maxoff gaussfit ret_err zeromean b nthreads use_np allow_huge = Raise ValueError.
Proof.
  intros. unfold cross_correlation_shifts. destruct (list_eq_dec Z.eq_dec (shape im1) (shape im2)); [contradiction|reflexivity].
Qed.
Print Assumptions C50_shape_mismatch.

(** no overlap correlates positively and some overlap not at all: (0, 0), whatever else is requested *)
Theorem C50_no_signal_returns_zero :
  forall e agpy im1 im2 er1 er2 maxoff gaussfit ret_err zeromean nthreads use_np allow_huge ny nx,
  shape im1 = [ny; nx] -> shape im2 = [ny; nx] -> (0 < ny)%Z -> (0 < nx)%Z -> size_ok e allow_huge ny nx ->
  errim_ok er1 ny nx -> errim_ok er2 ny nx ->
  let f := prep zeromean im1 ny nx in let g := prep zeromean im2 ny nx in
  (forall s t, ccf ny nx f g s t <= 0) -> (exists s t, ccf ny nx f g s t = 0) ->
  cross_correlation_shifts e agpy im1 im2 er1 er2 maxoff gaussfit ret_err zeromean BWrap nthreads use_np allow_huge = Ok [XF 0; XF 0].
Proof.
  intros e agpy im1 im2 er1 er2 mo gf re zm nt np huge ny nx H1 H2 Hy Hx Hh He1 He2 f g Hle [s [t H0]].
  rewrite (xcorr_eq e agpy im1 im2 er1 er2 mo gf re zm nt np huge ny nx) by auto.
  fold f g. change (fun k l => _) with (cmap ny nx f g). unfold xtail.
  assert (S := argmin2_spec ny nx (fun i j => - cmap ny nx f g i j) Hy Hx). fold (argmax2 ny nx (cmap ny nx f g)) in S.
  destruct (argmax2 ny nx (cmap ny nx f g)) as [y x]. destruct S as [_ [_ [S _]]]. cbn [fst snd] in S.
  destruct (cmap_onto ny nx f g s t Hy Hx) as [k [l [Hk [Hl E]]]]. specialize (S k l Hk Hl). rewrite E, H0 in S.
  assert (N := size_pos ny nx Hy Hx). assert (0 < / IZR (ny * nx)) by (apply Rinv_0_lt_compat; auto).
  assert (cmap ny nx f g y x <= 0).
  { unfold cmap, Rdiv. specialize (Hle ((ny - 1) / 2 - y)%Z ((nx - 1) / 2 - x)%Z).
    assert (0 <= - ccf ny nx f g ((ny - 1) / 2 - y) ((nx - 1) / 2 - x) * / IZR (ny * nx)) by (apply Rmult_le_pos; lra). lra. }
  unfold Rdiv in S. rewrite Rmult_0_l in S. destruct (Req_EM_T (cmap ny nx f g y x) 0) as [Z|Z]; [reflexivity|]. exfalso. apply Z. lra.
Qed.
Print Assumptions C50_no_signal_returns_zero.

(** in particular when one image is blank: constant (with zeromean) on its valid pixels, or without any valid pixel *)
Corollary C50_blank_image :
  forall e agpy im1 im2 er1 er2 maxoff gaussfit ret_err nthreads use_np allow_huge ny nx v,
  shape im1 = [ny; nx] -> shape im2 = [ny; nx] -> (0 < ny)%Z -> (0 < nx)%Z -> size_ok e allow_huge ny nx ->
  errim_ok er1 ny nx -> errim_ok er2 ny nx ->
  (forall y x, (0 <= y < ny)%Z -> (0 <= x < nx)%Z -> get im2 [y; x] = NaN \/ get im2 [y; x] = Fin v) ->
  cross_correlation_shifts e agpy im1 im2 er1 er2 maxoff gaussfit ret_err true BWrap nthreads use_np allow_huge = Ok [XF 0; XF 0].
Proof.
  intros e agpy im1 im2 er1 er2 mo gf re nt np huge ny nx v H1 H2 Hy Hx Hh He1 He2 Hv.
  assert (Z : forall y x, (0 <= y < ny)%Z -> (0 <= x < nx)%Z -> prep true im2 ny nx y x = 0).
  { intros y x HY HX. unfold prep. destruct (Hv y x HY HX) as [E|E]; rewrite E; [reflexivity|].
    assert (Es : pixel_sum ny nx (px im2) = v * valid_count im2 ny nx).
    { unfold valid_count. change (pixel_sum ny nx) with (sum2 ny nx). rewrite <- sum2_scal. apply sum2_ext. intros i j Hi Hj. unfold px.
      destruct (Hv i j Hi Hj) as [-> | ->]; ring. }
    assert (Hc : valid_count im2 ny nx <> 0).
    { assert (G := sum2_term_le ny nx (fun i j => match get im2 [i; j] with Fin _ => 1 | NaN => 0 end) y x
         ltac:(intros i j _ _; cbv beta; destruct (get im2 [i; j]); lra) HY HX). cbv beta in G. rewrite E in G.
      unfold valid_count. change (pixel_sum ny nx) with (sum2 ny nx). lra. }
    rewrite Es. field. exact Hc. }
  assert (C : forall s t, ccf ny nx (prep true im1 ny nx) (prep true im2 ny nx) s t = 0).
  { intros s t. apply sum2_const0. intros i j Hi Hj. rewrite Z by auto. ring. }
  apply (C50_no_signal_returns_zero e agpy im1 im2 er1 er2 mo gf re true nt np huge ny nx); auto; [intros; rewrite C; lra|exists 0%Z, 0%Z; apply C].
Qed.
Print Assumptions C50_blank_image.

(** a maximum on the first row or column raises *)
Theorem C50_first_row_or_column_raises :
  forall e agpy im1 im2 er1 er2 ret_err zeromean nthreads use_np allow_huge ny nx sy sx,
  shape im1 = [ny; nx] -> shape im2 = [ny; nx] -> (0 < ny)%Z -> (0 < nx)%Z -> size_ok e allow_huge ny nx ->
  errim_ok er1 ny nx -> errim_ok er2 ny nx ->
  let f := prep zeromean im1 ny nx in let g := prep zeromean im2 ny nx in
  best_roll ny nx f g sy sx -> ccf ny nx f g sy sx <> 0 ->
  sy = ((ny - 1) / 2)%Z /\ (- (nx / 2) <= sx <= (nx - 1) / 2)%Z \/ sx = ((nx - 1) / 2)%Z /\ (- (ny / 2) <= sy <= (ny - 1) / 2)%Z ->
  cross_correlation_shifts e agpy im1 im2 er1 er2 None false ret_err zeromean BWrap nthreads use_np allow_huge = Raise ValueError.
Proof.
  intros e agpy im1 im2 er1 er2 re zm nt np huge ny nx sy sx H1 H2 Hy Hx Hh He1 He2 f g Hb Hc He.
  rewrite (xcorr_eq e agpy im1 im2 er1 er2 None false re zm nt np huge ny nx) by auto.
  fold f g. change (fun k l => _) with (cmap ny nx f g). unfold xtail.
  rewrite (best_argmax ny nx f g sy sx) by (auto; Z.to_euclidean_division_equations; lia).
  destruct (Req_EM_T (cmap ny nx f g ((ny - 1) / 2 - sy) ((nx - 1) / 2 - sx)) 0) as [Z|Z].
  - exfalso. apply Hc. unfold cmap in Z. replace ((ny - 1) / 2 - ((ny - 1) / 2 - sy))%Z with sy in Z by lia. replace ((nx - 1) / 2 - ((nx - 1) / 2 - sx))%Z with sx in Z by lia.
    assert (P := size_pos ny nx Hy Hx). apply (Rmult_eq_compat_r (IZR (ny * nx))) in Z. unfold Rdiv in Z. rewrite Rmult_assoc, Rinv_l, Rmult_1_r, Rmult_0_l in Z by lra. exact Z.
  - rewrite derivs_first by (auto; lia). reflexivity.
Qed.
Print Assumptions C50_first_row_or_column_raises.

(** everything depends on the prepared images only *)
Lemma xcorr_det e agpy a1 a2 b1 b2 mo gf re zm zm' nt np huge ny nx :
  shape a1 = [ny; nx] -> shape a2 = [ny; nx] -> shape b1 = [ny; nx] -> shape b2 = [ny; nx] -> (0 < ny)%Z -> (0 < nx)%Z -> size_ok e huge ny nx ->
  (forall y x, (0 <= y < ny)%Z -> (0 <= x < nx)%Z -> prep zm a1 ny nx y x = prep zm' b1 ny nx y x) ->
  (forall y x, (0 <= y < ny)%Z -> (0 <= x < nx)%Z -> prep zm a2 ny nx y x = prep zm' b2 ny nx y x) ->
  forall er1 er2, errim_ok er1 ny nx -> errim_ok er2 ny nx ->
  cross_correlation_shifts e agpy a1 a2 er1 er2 mo gf re zm BWrap nt np huge = cross_correlation_shifts e agpy b1 b2 er1 er2 mo gf re zm' BWrap nt np huge.
Proof.
  intros A1 A2 B1 B2 Hy Hx Hh E1 E2 er1 er2 He1 He2.
  rewrite (xcorr_eq e agpy a1 a2 er1 er2 mo gf re zm nt np huge ny nx), (xcorr_eq e agpy b1 b2 er1 er2 mo gf re zm' nt np huge ny nx) by auto.
  unfold sqsum. rewrite (sum2_ext ny nx (fun i j => prep zm a1 ny nx i j ^ 2) (fun i j => prep zm' b1 ny nx i j ^ 2)) by (intros; rewrite E1; auto).
  rewrite (sum2_ext ny nx (fun i j => prep zm a2 ny nx i j ^ 2) (fun i j => prep zm' b2 ny nx i j ^ 2)) by (intros; rewrite E2; auto).
  replace (emap_of ny nx er1 er2 (prep zm a1 ny nx) (prep zm a2 ny nx) re) with (emap_of ny nx er1 er2 (prep zm' b1 ny nx) (prep zm' b2 ny nx) re).
  - apply xtail_ext; auto. intros k l Hk Hl. f_equal. apply sum2_ext. intros i j Hi Hj.
    rewrite E1 by (apply Z.mod_pos_bound; auto). rewrite E2 by auto. reflexivity.
  - unfold emap_of. destruct re; [|reflexivity]. f_equal. apply rows_ext. intros k l Hk Hl. apply emap_ext; auto. intros y x HY HX. rewrite E1, E2 by auto.
    unfold pixel_error. rewrite (std2_ext ny nx (prep zm a1 ny nx) (prep zm' b1 ny nx)), (std2_ext ny nx (prep zm a2 ny nx) (prep zm' b2 ny nx)) by auto. auto.
Qed.

(** constants added to either image do not matter with zeromean=True *)
Theorem C50_constants_ignored :
  forall e agpy im1 im2 er1 er2 maxoff gaussfit ret_err nthreads use_np allow_huge ny nx k1 k2,
  shape im1 = [ny; nx] -> shape im2 = [ny; nx] -> (0 < ny)%Z -> (0 < nx)%Z -> size_ok e allow_huge ny nx ->
  errim_ok er1 ny nx -> errim_ok er2 ny nx ->
  cross_correlation_shifts e agpy (add_const k1 im1) (add_const k2 im2) er1 er2 maxoff gaussfit ret_err true BWrap nthreads use_np allow_huge =
  cross_correlation_shifts e agpy im1 im2 er1 er2 maxoff gaussfit ret_err true BWrap nthreads use_np allow_huge.
Proof.
  intros. eapply xcorr_det; eauto; intros; apply prep_add_const; auto.
Qed.
Print Assumptions C50_constants_ignored.

Lemma prep_scale zm k a ny nx y x : prep zm (scale_img k a) ny nx y x = k * prep zm a ny nx y x.
Proof.
  unfold prep. cbn [scale_img amap get]. destruct (get a [y; x]) as [r|] eqn:E; [|ring]. destruct zm; [|reflexivity].
  assert (Ec : valid_count (scale_img k a) ny nx = valid_count a ny nx).
  { apply sum2_ext. intros i j Hi Hj. cbn [scale_img amap get]. destruct (get a [i; j]); reflexivity. }
  assert (Es : pixel_sum ny nx (px (scale_img k a)) = k * pixel_sum ny nx (px a)).
  { change (pixel_sum ny nx) with (sum2 ny nx). rewrite <- sum2_scal. apply sum2_ext. intros i j Hi Hj.
    unfold px. cbn [scale_img amap get]. destruct (get a [i; j]); ring. }
  rewrite Es, Ec. unfold Rdiv. ring.
Qed.

Lemma ccf_scale ny nx f g f' g' a b s t : (0 < ny)%Z -> (0 < nx)%Z ->
  (forall y x, (0 <= y < ny)%Z -> (0 <= x < nx)%Z -> f' y x = a * f y x) ->
  (forall y x, (0 <= y < ny)%Z -> (0 <= x < nx)%Z -> g' y x = b * g y x) ->
  ccf ny nx f' g' s t = a * b * ccf ny nx f g s t.
Proof.
  intros Hy Hx F G. unfold ccf. change (pixel_sum ny nx) with (sum2 ny nx). rewrite <- sum2_scal. apply sum2_ext. intros i j Hi Hj.
  rewrite F, G by (auto; apply Z.mod_pos_bound; auto). ring.
Qed.

Lemma xdiv_scale k a b : k <> 0 -> xdiv (XF (k * a)) (XF (k * b)) = xdiv (XF a) (XF b).
Proof.
  intros Hk. simpl. destruct (Req_EM_T b 0) as [->|Nb].
  - rewrite Rmult_0_r. destruct (Req_EM_T 0 0); [|contradiction]. destruct (Req_EM_T a 0) as [->|Na].
    + rewrite Rmult_0_r. destruct (Req_EM_T 0 0); [reflexivity|contradiction].
    + destruct (Req_EM_T (k * a) 0) as [E|E]; [|reflexivity]. apply Rmult_integral in E. tauto.
  - destruct (Req_EM_T (k * b) 0) as [E|E]; [apply Rmult_integral in E; tauto|]. f_equal. field. auto.
Qed.

Lemma xtail_scale agpy ny nx m em em' s1 s2 s1' s2' k mo : (0 < ny)%Z -> (0 < nx)%Z -> 0 < k ->
  xtail agpy ny nx (fun i j => k * m i j) em' s1' s2' mo false false = xtail agpy ny nx m em s1 s2 mo false false.
Proof.
  intros Hy Hx Hk. unfold xtail.
  assert (E : argmax2 ny nx (fun i j => k * m i j) = argmax2 ny nx m).
  { apply argmin2_mono; auto. intros a b c d _ _ _ _. split; intros H.
    - apply (Rmult_lt_reg_l k); auto. lra.
    - apply (Rmult_lt_compat_l k) in H; auto. lra. }
  rewrite E. assert (S := argmin2_spec ny nx (fun i j => - m i j) Hy Hx). fold (argmax2 ny nx m) in S.
  destruct (argmax2 ny nx m) as [y x]. destruct S as [S1 [S2 _]]. cbn [fst snd] in *.
  destruct (Req_EM_T (m y x) 0) as [Z|Z].
  { rewrite Z, Rmult_0_r. destruct (Req_EM_T 0 0); [reflexivity|contradiction]. }
  destruct (Req_EM_T (k * m y x) 0) as [Z'|Z']; [apply Rmult_integral in Z'; destruct Z'; [lra|contradiction]|].
  destruct mo; [reflexivity|].
  destruct (Z.eq_dec y 0) as [Ey|Ny]; [rewrite !derivs_first by auto; reflexivity|].
  destruct (Z.eq_dec x 0) as [Ex|Nx]; [rewrite !derivs_first by auto; reflexivity|].
  rewrite !derivs_pos by lia. cbn [bind].
  assert (Zx : forall a b, zext ny nx (fun i j => k * m i j) a b = k * zext ny nx m a b).
  { intros a b. unfold zext. destruct (a <? ny)%Z; [destruct (b <? nx)%Z|]; ring. }
  rewrite !Zx. set (z := zext ny nx m).
  assert (X : forall (t : bool) a b c d, (if t then k * a - k * b else (k * c - k * d) / 2) = k * (if t then a - b else (c - d) / 2)).
  { intros [] a b c d; field. }
  rewrite !X. set (gx := if (x =? nx - 1)%Z then _ else _). set (gy := if (y =? ny - 1)%Z then _ else _).
  assert (Hk2 : k * k <> 0) by (apply Rmult_integral_contrapositive_currified; lra).
  do 2 f_equal; [|f_equal]; f_equal; match goal with |- _ = xdiv (XF ?a) (XF ?b) => rewrite <- (xdiv_scale (k * k) a b Hk2) end; f_equal; f_equal; ring.
Qed.

(** positive scaling of the images (product of the factors positive) does not change the shift *)
Theorem C50_scale_ignored :
  forall e agpy im1 im2 er1 er2 maxoff zeromean nthreads use_np allow_huge ny nx k1 k2,
  shape im1 = [ny; nx] -> shape im2 = [ny; nx] -> (0 < ny)%Z -> (0 < nx)%Z -> size_ok e allow_huge ny nx ->
  errim_ok er1 ny nx -> errim_ok er2 ny nx -> 0 < k1 * k2 ->
  cross_correlation_shifts e agpy (scale_img k1 im1) (scale_img k2 im2) er1 er2 maxoff false false zeromean BWrap nthreads use_np allow_huge =
  cross_correlation_shifts e agpy im1 im2 er1 er2 maxoff false false zeromean BWrap nthreads use_np allow_huge.
Proof.
  intros e agpy im1 im2 er1 er2 mo zm nt np huge ny nx k1 k2 H1 H2 Hy Hx Hh He1 He2 Hk.
  rewrite (xcorr_eq e agpy (scale_img k1 im1) (scale_img k2 im2) er1 er2 mo false false zm nt np huge ny nx) by auto.
  rewrite (xcorr_eq e agpy im1 im2 er1 er2 mo false false zm nt np huge ny nx) by auto.
  etransitivity; [|apply (xtail_scale agpy ny nx _ _ None _ _ (sqsum ny nx (prep zm (scale_img k1 im1) ny nx)) (sqsum ny nx (prep zm (scale_img k2 im2) ny nx)) (k1 * k2) mo Hy Hx Hk)].
  apply xtail_ext; auto. intros k l Hkk Hl.
  rewrite (ccf_scale ny nx (prep zm im1 ny nx) (prep zm im2 ny nx) _ _ k1 k2) by (auto; intros; apply prep_scale). unfold Rdiv. ring.
Qed.
Print Assumptions C50_scale_ignored.

Example C50_nonvacuous : let f := prep false (dot 4 4 1 1) 4 4 in let g := prep false (dot 4 4 2 1) 4 4 in
  best_roll 4 4 f g 1 0 /\ ccf 4 4 f g 1 0 <> 0 /\ (1 = (4 - 1) / 2)%Z /\ size_ok (Env false (2 ^ 30) false (fun _ _ => NaN)) false 4 4.
Proof.
  cbv zeta. assert (R : forall s t, ccf 4 4 (prep false (dot 4 4 1 1) 4 4) (prep false (dot 4 4 2 1) 4 4) s t =
     (if (((1 + s) mod 4 =? 2) && ((1 + t) mod 4 =? 1))%Z then 1 else 0)).
  { intros. rewrite (ccf_delta 4 4 _ _ 1 1) by (try lia; intros; apply dot_prep). reflexivity. }
  split.
  - intros s t H. rewrite !R. change ((1 + 1) mod 4 =? 2)%Z with true. change ((1 + 0) mod 4 =? 1)%Z with true. cbn [andb]. assert (G : ((1 + s) mod 4 <> 2 \/ (1 + t) mod 4 <> 1)%Z) by (Z.to_euclidean_division_equations; lia).
    destruct (Z.eqb_spec ((1 + s) mod 4) 2); destruct (Z.eqb_spec ((1 + t) mod 4) 1); cbn [andb]; try lra; exfalso; lia.
  - split; [rewrite R; simpl; lra|]. split; [reflexivity|]. right. simpl. lia.
Qed.

(** *** C71: exchanging the images negates the shift (even sizes) *)
Definition xneg (x : xnum) : xnum := match x with XF a => XF (- a) | _ => x end.

Lemma ccf_swap ny nx f g s t : (0 < ny)%Z -> (0 < nx)%Z -> ccf ny nx g f s t = ccf ny nx f g (- s) (- t).
Proof.
  intros Hy Hx. unfold ccf. change (pixel_sum ny nx) with (sum2 ny nx).
  rewrite <- (sum2_shift ny nx (fun i j => f ((i - - s) mod ny)%Z ((j - - t) mod nx)%Z * g i j) (- s) (- t)) by auto.
  apply sum2_ext. intros i j Hi Hj. rewrite !Zminus_mod_idemp_l. rewrite Rmult_comm. f_equal.
  f_equal; [rewrite <- (Z.mod_small i ny) at 1 by auto|rewrite <- (Z.mod_small j nx) at 1 by auto]; f_equal; lia.
Qed.

Theorem C71_swap_negates :
  forall e agpy im1 im2 er1 er2 zeromean nthreads use_np allow_huge ny nx sy sx,
  shape im1 = [ny; nx] -> shape im2 = [ny; nx] -> size_ok e allow_huge ny nx -> errim_ok er1 ny nx -> errim_ok er2 ny nx ->
  Z.even ny = true -> Z.even nx = true ->
  interior_shift ny sy -> interior_shift nx sx -> interior_shift ny (- sy) -> interior_shift nx (- sx) ->
  let f := prep zeromean im1 ny nx in let g := prep zeromean im2 ny nx in
  best_roll ny nx f g sy sx -> ccf ny nx f g sy sx <> 0 ->
  exists x y,
    cross_correlation_shifts e agpy im1 im2 er1 er2 None false false zeromean BWrap nthreads use_np allow_huge = Ok [x; y] /\
    cross_correlation_shifts e agpy im2 im1 er2 er1 None false false zeromean BWrap nthreads use_np allow_huge = Ok [xneg x; xneg y].
Proof.
  intros e agpy im1 im2 er1 er2 zm nt np huge ny nx sy sx H1 H2 Hh He1 He2 Ey Ex Iy Ix Jy Jx f g Hb Hc.
  assert (By := interior_bounds ny sy Iy). assert (Bx := interior_bounds nx sx Ix).
  assert (Hy : (0 < ny)%Z) by lia. assert (Hx : (0 < nx)%Z) by lia.
  assert (Sw := fun s t => ccf_swap ny nx f g s t Hy Hx).
  assert (Hb' : best_roll ny nx g f (- sy) (- sx)).
  { intros s t H. rewrite !Sw, !Z.opp_involutive. apply Hb.
    assert (G : forall n a b, (0 < n)%Z -> ((a - - b) mod n <> 0)%Z -> ((- a - b) mod n <> 0)%Z).
    { intros n a b Hn Hm E. apply Hm. apply Z.mod_divide in E; [|lia]. destruct E as [k E]. apply Z.mod_divide; [lia|]. exists (- k)%Z. lia. }
    destruct H; [left|right]; apply G; auto. }
  rewrite (xcorr_interior e agpy im1 im2 er1 er2 false zm nt np huge ny nx sy sx) by auto.
  rewrite (xcorr_interior e agpy im2 im1 er2 er1 false zm nt np huge ny nx (- sy) (- sx)) by (auto; fold f g; rewrite Sw, !Z.opp_involutive; auto).
  fold f g. set (N := IZR (ny * nx)).
  assert (SK : forall i j, ccf ny nx g f (- sy + i) (- sx + j) = ccf ny nx f g (sy + - i) (sx + - j)).
  { intros. rewrite Sw. f_equal; lia. }
  rewrite !SK. change (- (-1))%Z with 1%Z. change (- (1))%Z with (-1)%Z. change (- 0)%Z with 0%Z.
  set (K := fun i j => ccf ny nx f g (sy + i) (sx + j) / N).
  change (ccf ny nx f g (sy + 0) (sx + -1) / N) with (K 0%Z (-1)%Z). change (ccf ny nx f g (sy + 0) (sx + 1) / N) with (K 0%Z 1%Z).
  change (ccf ny nx f g (sy + -1) (sx + 0) / N) with (K (-1)%Z 0%Z). change (ccf ny nx f g (sy + 1) (sx + 0) / N) with (K 1%Z 0%Z).
  change (ccf ny nx f g (sy + -1) (sx + 1) / N) with (K (-1)%Z 1%Z). change (ccf ny nx f g (sy + 1) (sx + -1) / N) with (K 1%Z (-1)%Z).
  change (ccf ny nx f g (sy + -1) (sx + -1) / N) with (K (-1)%Z (-1)%Z). change (ccf ny nx f g (sy + 1) (sx + 1) / N) with (K 1%Z 1%Z).
  change (ccf ny nx f g (sy + 0) (sx + 0) / N) with (K 0%Z 0%Z).
  unfold half_if_odd. rewrite <- !Z.negb_even, Ey, Ex. cbn [negb].
  do 2 eexists. split; [reflexivity|].
  set (fyy := K 0%Z 1%Z + K 0%Z (-1)%Z - 2 * K 0%Z 0%Z).
  replace (K 0%Z (-1)%Z + K 0%Z 1%Z - 2 * K 0%Z 0%Z) with fyy by (unfold fyy; ring).
  set (fxx := K (-1)%Z 0%Z + K 1%Z 0%Z - 2 * K 0%Z 0%Z).
  replace (K 1%Z 0%Z + K (-1)%Z 0%Z - 2 * K 0%Z 0%Z) with fxx by (unfold fxx; ring).
  set (fxy := 1 / 4 * (K (-1)%Z 1%Z + K 1%Z (-1)%Z - K (-1)%Z (-1)%Z - K 1%Z 1%Z)).
  replace (1 / 4 * (K 1%Z (-1)%Z + K (-1)%Z 1%Z - K 1%Z 1%Z - K (-1)%Z (-1)%Z)) with fxy by (unfold fxy; ring).
  set (fx := (K 0%Z (-1)%Z - K 0%Z 1%Z) / 2). replace ((K 0%Z 1%Z - K 0%Z (-1)%Z) / 2) with (- fx) by (unfold fx; field).
  set (fy := (K (-1)%Z 0%Z - K 1%Z 0%Z) / 2). replace ((K 1%Z 0%Z - K (-1)%Z 0%Z) / 2) with (- fy) by (unfold fy; field).
  assert (X : forall r a d, xnegadd (- - r - 0) (xdiv (XF (- a)) (XF d)) = xneg (xnegadd (- r - 0) (xdiv (XF a) (XF d)))).
  { intros r a d. simpl. destruct (Req_EM_T d 0).
    - destruct (Req_EM_T a 0) as [->|Na]; [rewrite Ropp_0; destruct (Req_EM_T 0 0); [reflexivity|contradiction]|].
      destruct (Req_EM_T (- a) 0); [exfalso; apply Na; lra|reflexivity].
    - simpl. f_equal. unfold Rdiv. ring. }
  rewrite !opp_IZR. replace (fyy * - fx - - fy * fxy) with (- (fyy * fx - fy * fxy)) by ring.
  replace (fxx * - fy - - fx * fxy) with (- (fxx * fy - fx * fxy)) by ring. rewrite !X. reflexivity.
Qed.
Print Assumptions C71_swap_negates.
Example C71_nonvacuous : interior_shift 4 0 /\ interior_shift 4 (- 0) /\ best_roll 4 4 (prep false (dot 4 4 1 1) 4 4) (prep false quad 4 4) 0 0 /\
  ccf 4 4 (prep false (dot 4 4 1 1) 4 4) (prep false quad 4 4) 0 0 <> 0.
Proof.
  split; [unfold interior_shift; cbn; lia|]. split; [unfold interior_shift; cbn; lia|]. split; [apply quad_best|]. rewrite quad_ccf. cbn. lra.
Qed.

(** *** C72: the error estimate depends on the units of the images *)
Lemma roll_errors e agpy im1 zm nt np huge ny nx :
  shape im1 = [ny; nx] -> size_ok e huge ny nx -> interior_shift ny 0 -> interior_shift nx 0 -> no_symmetry ny nx (prep zm im1 ny nx) ->
  let f := prep zm im1 ny nx in let N := IZR (ny * nx) in let A := ccf ny nx f f in
  exists x y ex ey, cross_correlation_shifts e agpy im1 im1 None None None false true zm BWrap nt np huge = Ok [x; y; ex; ey] /\
    ex = zucker N (sqsum ny nx f) (sqsum ny nx f) (A 0%Z 0%Z / N) (2 * (A 1%Z 0%Z - A 0%Z 0%Z) / N).
Proof.
  intros H1 Hh Iy Ix Hn f N A.
  assert (By := interior_bounds ny 0 Iy). assert (Bx := interior_bounds nx 0 Ix).
  assert (Hr : is_roll im1 im1 ny nx 0 0).
  { split; [auto|]. split; [auto|]. intros y x Hy Hx. rewrite !Z.sub_0_r, !Z.mod_small by auto. reflexivity. }
  destruct (C45_roll_result_all_sizes e agpy im1 im1 None None true zm nt np huge ny nx 0 0 Hr Hh I I Iy Ix Hn) as [rest [E L]].
  assert (Hb : best_roll ny nx f f 0 0).
  { apply best_of_roll; auto; try lia. intros y x Hy Hx. rewrite !Z.sub_0_r, !Z.mod_small by auto. reflexivity. }
  assert (Ap : ccf ny nx f f 0 0 <> 0).
  { intros E0. assert (S := auto_strict ny nx f 1 0 ltac:(lia) ltac:(lia) Hn ltac:(left; rewrite Z.mod_small; lia)).
    assert (S2 : ccf ny nx f f 0 0 = sqsum ny nx f).
    { apply sum2_ext. intros i j Hi Hj. rewrite !Z.sub_0_r, !Z.mod_small by auto. ring. }
    rewrite E0 in S2. symmetry in S2.
    assert (Z : forall i j, (0 <= i < ny)%Z -> (0 <= j < nx)%Z -> f i j = 0).
    { intros i j Hi Hj. assert (W := sum2_nonneg_0 ny nx (fun i j => f i j ^ 2) ltac:(intros; apply pow2_ge_0) S2 i j Hi Hj). cbv beta in W.
      simpl in W. rewrite Rmult_1_r in W. apply Rmult_integral in W. tauto. }
    assert (C : ccf ny nx f f 1 0 = 0) by (apply sum2_const0; intros i j Hi Hj; rewrite (Z i j) by auto; ring). lra. }
  assert (R := xcorr_interior e agpy im1 im1 None None true zm nt np huge ny nx 0 0 H1 H1 Hh I I Iy Ix). cbv zeta in R. fold f N A in R.
  rewrite R in E by auto. rewrite R by auto.
  assert (E1 : A (-1)%Z 0%Z = A 1%Z 0%Z) by exact (auto_sym ny nx f ltac:(lia) ltac:(lia) 1%Z 0%Z).
  rewrite !Z.add_0_l in *. rewrite E1 in *.
  replace (A 1%Z 0%Z / N + A 1%Z 0%Z / N - 2 * (A 0%Z 0%Z / N)) with (2 * (A 1%Z 0%Z - A 0%Z 0%Z) / N) in * by (unfold Rdiv; ring).
  destruct (zucker N (sqsum ny nx f) (sqsum ny nx f) (A 0%Z 0%Z / N) (2 * (A 1%Z 0%Z - A 0%Z 0%Z) / N)); [|discriminate|]; do 4 eexists; split; reflexivity.
Qed.

Lemma scaled_dot_ccf k s t : ccf 4 4 (prep false (scale_img k (dot 4 4 1 1)) 4 4) (prep false (scale_img k (dot 4 4 1 1)) 4 4) s t =
  k * k * (if (((1 + s) mod 4 =? 1) && ((1 + t) mod 4 =? 1))%Z then 1 else 0).
Proof.
  rewrite (ccf_scale 4 4 (prep false (dot 4 4 1 1) 4 4) (prep false (dot 4 4 1 1) 4 4) _ _ k k) by (try lia; intros; apply prep_scale).
  rewrite (ccf_delta 4 4 _ _ 1 1) by (try lia; intros; apply dot_prep). rewrite dot_prep. reflexivity.
Qed.

Lemma scaled_dot_error k : k <> 0 -> k ^ 4 <> 256 -> forall e agpy nt np, exists x y ey,
  cross_correlation_shifts e agpy (scale_img k (dot 4 4 1 1)) (scale_img k (dot 4 4 1 1)) None None None false true false BWrap nt np true =
  Ok [x; y; XF (/ sqrt (Rabs (32 * 256 / (k ^ 4 - 256)))); ey].
Proof.
  intros Hk Hk4 e agpy nt np.
  assert (Hn : no_symmetry 4 4 (prep false (scale_img k (dot 4 4 1 1)) 4 4)).
  { intros s t H. apply (dot_no_symmetry 4 4 1 1 ltac:(lia) ltac:(lia)). intros y x HY HX. specialize (H y x HY HX).
    rewrite !prep_scale in H. apply Rmult_eq_reg_l in H; auto. }
  destruct (roll_errors e agpy (scale_img k (dot 4 4 1 1)) false nt np true 4 4 eq_refl (or_introl eq_refl)) as [x [y [ex [ey [-> E]]]]];
    auto; try (unfold interior_shift; cbn; lia).
  exists x, y, ey. do 3 f_equal. f_equal. rewrite E, !scaled_dot_ccf.
  change (((1 + 0) mod 4 =? 1) && ((1 + 0) mod 4 =? 1))%Z with true. change (((1 + 1) mod 4 =? 1) && ((1 + 0) mod 4 =? 1))%Z with false. cbn match.
  change (IZR (4 * 4)) with 16.
  assert (Sq : sqsum 4 4 (prep false (scale_img k (dot 4 4 1 1)) 4 4) = k * k).
  { rewrite <- (Rmult_1_r (k * k)). change 1 with (if (((1 + 0) mod 4 =? 1) && ((1 + 0) mod 4 =? 1))%Z then 1 else 0). rewrite <- scaled_dot_ccf.
    apply sum2_ext. intros i j Hi Hj. rewrite !Z.sub_0_r, !Z.mod_small by auto. ring. }
  rewrite Sq. unfold zucker.
  assert (K2 : k * k <> 0) by (apply Rmult_integral_contrapositive_currified; auto).
  assert (K3 : k * k / 16 <> 0) by (unfold Rdiv; apply Rmult_integral_contrapositive_currified; auto; lra).
  rewrite (xdiv_ok 1), xdiv_ok by exact K3. cbn [xmul].
  replace (k * k * 1 / 16 * (1 / (k * k / 16) / (k * k / 16))) with (16 / (k * k)) by (field; auto).
  assert (K4 : 16 / (k * k) <> 0) by (unfold Rdiv; apply Rmult_integral_contrapositive_currified; [lra|apply Rinv_neq_0_compat; auto]).
  assert (K5 : 1 - 16 / (k * k) * (16 / (k * k)) <> 0).
  { intros Z. apply Hk4. apply (Rmult_eq_compat_r (k ^ 4)) in Z. replace ((1 - 16 / (k * k) * (16 / (k * k))) * k ^ 4) with (k ^ 4 - 256) in Z by (field; auto). lra. }
  rewrite !xdiv_ok by assumption. cbn [xmul].
  assert (EQ : -1 * 16 * (2 * (k * k * 0 - k * k * 1) / 16) * (1 / (k * k / 16) / (k * k / 16)) / (16 / (k * k)) *
     (16 / (k * k) * (16 / (k * k)) / (1 - 16 / (k * k) * (16 / (k * k)))) = 32 * 256 / (k ^ 4 - 256)).
  { field. repeat split; auto; try (intros Z; apply Hk4; simpl in *; lra). }
  rewrite EQ. cbn [xabs_pow_mhalf]. destruct (Req_EM_T (32 * 256 / (k ^ 4 - 256)) 0) as [Z|Z]; [|reflexivity].
  exfalso. unfold Rdiv in Z. apply Rmult_integral in Z. destruct Z as [Z|Z]; [lra|]. revert Z. apply Rinv_neq_0_compat. lra.
Qed.

Theorem C72_error_is_unit_dependent :
  exists im : arr num, exists k : R, 0 < k /\ forall e agpy nthreads use_np, exists x y ex ey x' y' ex' ey',
    cross_correlation_shifts e agpy im im None None None false true false BWrap nthreads use_np true = Ok [x; y; XF ex; ey] /\
    cross_correlation_shifts e agpy (scale_img k im) (scale_img k im) None None None false true false BWrap nthreads use_np true = Ok [x'; y'; XF ex'; ey'] /\
    ex <> ex'.
Proof.
  exists (scale_img 1 (dot 4 4 1 1)), 2. split; [lra|]. intros e agpy nt np.
  destruct (scaled_dot_error 1 ltac:(lra) ltac:(simpl; lra) e agpy nt np) as [x [y [ey E]]].
  destruct (scaled_dot_error 2 ltac:(lra) ltac:(simpl; lra) e agpy nt np) as [x' [y' [ey' E']]].
  do 8 eexists. split; [exact E|]. split.
  - replace (cross_correlation_shifts e agpy (scale_img 2 (scale_img 1 (dot 4 4 1 1))) (scale_img 2 (scale_img 1 (dot 4 4 1 1))) None None None false true false BWrap nt np true)
      with (cross_correlation_shifts e agpy (scale_img 2 (dot 4 4 1 1)) (scale_img 2 (dot 4 4 1 1)) None None None false true false BWrap nt np true); [exact E'|].
    apply (xcorr_det e agpy) with (ny := 4%Z) (nx := 4%Z); simpl; auto; try lia; try (left; reflexivity); intros; rewrite !prep_scale; ring.
  - intros H. apply (f_equal Rinv) in H. rewrite !Rinv_inv in H. apply sqrt_inj in H; try apply Rabs_pos.
    rewrite !Rabs_left in H; [|replace (32 * 256 / (2 ^ 4 - 256)) with (- (512 / 15)) by field; lra|replace (32 * 256 / (1 ^ 4 - 256)) with (- (8192 / 255)) by field; lra].
    simpl in H. lra.
Qed.
Print Assumptions C72_error_is_unit_dependent.
