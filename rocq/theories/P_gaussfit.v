(** C114: cross_correlation_shifts(gaussfit=True): what the fitter is given, and what is made of its answer *)
From Coq Require Import ZArith Lia List Reals Lra Bool.
From Coquelicot Require Import Complex.
From Verif Require Import Base NDim DFT Kernel Py M_fast_ffts M_shift M_convolve M_correlate Arg M_chi2 M_xcorr
  Sum2 Spec2 Spec3 L_correlate L_chi2 L_chi2shift L_fshift L_xcorr P_chi2errors P_xcorr P_xcorr2 P_xcorr3.
Import ListNotations.
Open Scope R_scope.

(** t is a table of ny rows of nx entries, the entry in row k, column l being m k l *)
Definition is_table {A} (t : list (list A)) (ny nx : Z) (m : Z -> Z -> A) : Prop :=
  Z.of_nat (length t) = ny /\ Forall (fun r => Z.of_nat (length r) = nx) t /\
  forall k l, (0 <= k < ny)%Z -> (0 <= l < nx)%Z -> exists row, nth_error t (Z.to_nat k) = Some row /\ nth_error row (Z.to_nat l) = Some (m k l).

(** a call with a fitter as parameter gives [data] and [errors] to the fitter; an exception of the fitter is passed on; the third and fourth
    fitted parameters (x, y) are subtracted from the position of offset zero, (n-1)/2 rounded down plus [half_if_odd n]; the errors of the
    two parameters are returned unchanged if asked for *)
Definition reports (call : fitter -> res (list xnum)) (ny nx : Z) (data : list (list R)) (errors : option (list (list num))) : Prop :=
  forall fit,
  (forall x, fit data errors = Raise x -> call fit = Raise x) /\
  (forall pars epars x y, fit data errors = Ok (pars, epars) -> nth_error pars 2 = Some x -> nth_error pars 3 = Some y ->
     let dx := XF (IZR ((nx - 1) / 2) - x + half_if_odd nx) in let dy := XF (IZR ((ny - 1) / 2) - y + half_if_odd ny) in
     match errors with
     | None => call fit = Ok [dx; dy]
     | Some _ => forall ex ey, nth_error epars 2 = Some ex -> nth_error epars 3 = Some ey -> call fit = Ok [dx; dy; XF ex; XF ey]
     end).

(** error of a pixel of an image: the error image where given (NaN counts as 0), else the standard deviation of the image *)
Definition sigma (ny nx : Z) (o : option (arr num)) (f : Z -> Z -> R) (y x : Z) : R :=
  match o with
  | Some a => px a y x
  | None => let N := IZR (ny * nx) in sqrt (pixel_sum ny nx (fun i j => (f i j - pixel_sum ny nx f / N) ^ 2) / N)
  end.
(** standard error of ccf f g at (sy, sx), over the number of pixels, if all pixels have independent errors *)
Definition ccf_error (ny nx : Z) (f g s1 s2 : Z -> Z -> R) (sy sx : Z) : R :=
  sqrt (pixel_sum ny nx (fun i j =>
    s1 ((i - sy) mod ny)%Z ((j - sx) mod nx)%Z ^ 2 * g i j ^ 2 + f ((i - sy) mod ny)%Z ((j - sx) mod nx)%Z ^ 2 * s2 i j ^ 2)) / IZR (ny * nx).
(** what the code computes: the errors of the second image are taken at the opposite offset *)
Definition ccf_error_coded (ny nx : Z) (f g s1 s2 : Z -> Z -> R) (sy sx : Z) : R :=
  sqrt (pixel_sum ny nx (fun i j =>
    s1 ((i - sy) mod ny)%Z ((j - sx) mod nx)%Z ^ 2 * g i j ^ 2 + f i j ^ 2 * s2 ((i - sy) mod ny)%Z ((j - sx) mod nx)%Z ^ 2)) / IZR (ny * nx).

Lemma nth_seq_map {A} (f : nat -> A) n k : (k < n)%nat -> nth_error (map f (seq 0 n)) k = Some (f k).
Proof. intros H. rewrite nth_error_map. rewrite (nth_error_nth' (seq 0 n) 0%nat) by (rewrite seq_length; exact H). rewrite seq_nth by exact H. reflexivity. Qed.
Lemma rows_table {A} ny nx (m m' : Z -> Z -> A) : (0 < ny)%Z -> (0 < nx)%Z -> (forall k l, (0 <= k < ny)%Z -> (0 <= l < nx)%Z -> m k l = m' k l) -> is_table (rows ny nx m) ny nx m'.
Proof.
  intros Hy Hx H. rewrite (rows_ext ny nx m m') by exact H. unfold rows. split; [rewrite map_length, seq_length; lia|]. split.
  - apply Forall_forall. intros r Hr. apply in_map_iff in Hr. destruct Hr as [i [<- _]]. rewrite map_length, seq_length. lia.
  - intros k l Hk Hl. exists (map (fun j => m' k (Z.of_nat j)) (seq 0 (Z.to_nat nx))). split.
    + rewrite nth_seq_map by lia. rewrite Z2Nat.id by lia. reflexivity.
    + rewrite nth_seq_map by lia. rewrite Z2Nat.id by lia. reflexivity.
Qed.
Lemma emap_coded ny nx f g s1 s2 k l : (0 < ny)%Z -> (0 < nx)%Z ->
  emap ny nx s1 s2 (fun y x => f y x ^ 2) (fun y x => g y x ^ 2) k l = Fin (ccf_error_coded ny nx f g s1 s2 ((ny - 1) / 2 - k) ((nx - 1) / 2 - l)).
Proof.
  intros Hy Hx. unfold emap, half_power_over, ccf_error_coded, ccf. change (pixel_sum ny nx) with (sum2 ny nx). rewrite <- sum2_plus.
  rewrite (sum2_ext ny nx _ (fun i j => s1 ((i - ((ny - 1) / 2 - k)) mod ny)%Z ((j - ((nx - 1) / 2 - l)) mod nx)%Z ^ 2 * g i j ^ 2 +
    f i j ^ 2 * s2 ((i - ((ny - 1) / 2 - k)) mod ny)%Z ((j - ((nx - 1) / 2 - l)) mod nx)%Z ^ 2)) by (intros; ring).
  destruct (Rlt_dec _ 0) as [N|_]; [|reflexivity]. exfalso. apply (Rlt_not_le _ _ N). apply sum2_nonneg. intros i j _ _.
  apply Rplus_le_le_0_compat; apply Rmult_le_pos; apply pow2_ge_0.
Qed.
Lemma sigma_pixel_error ny nx o f : sigma ny nx o f = pixel_error ny nx o f.
Proof. destruct o; reflexivity. Qed.
Lemma ccen_half n : ccen n = IZR ((n - 1) / 2) + half_if_odd n.
Proof. apply ccen_val. Qed.

Lemma gauss_call e fit im1 im2 er1 er2 re zm nt np huge ny nx :
  shape im1 = [ny; nx] -> shape im2 = [ny; nx] -> (0 < ny)%Z -> (0 < nx)%Z -> size_ok e huge ny nx -> errim_ok er1 ny nx -> errim_ok er2 ny nx ->
  let f := prep zm im1 ny nx in let g := prep zm im2 ny nx in has_signal ny nx f g ->
  cross_correlation_shifts e (Some fit) im1 im2 er1 er2 None true re zm BWrap nt np huge = gauss_shifts fit ny nx (cmap ny nx f g) (emap_of ny nx er1 er2 f g re).
Proof.
  intros H1 H2 Hy Hx Hh He1 He2 f g Hs. rewrite (xcorr_eq e (Some fit) im1 im2 er1 er2 None true re zm nt np huge ny nx) by auto. fold f g.
  change (fun k l => _) with (cmap ny nx f g). unfold xtail. assert (Q := signal_nonzero ny nx f g Hy Hx Hs).
  destruct (argmax2 ny nx (cmap ny nx f g)) as [y x]. destruct (Req_EM_T _ 0); [contradiction|reflexivity].
Qed.
Lemma gauss_reports ny nx m em : reports (fun fit => gauss_shifts fit ny nx m em) ny nx (rows ny nx m) em.
Proof.
  intros fit. split.
  - intros x E. unfold gauss_shifts. rewrite E. reflexivity.
  - intros pars epars x y E Px Py. cbv zeta. unfold gauss_shifts. rewrite E. cbn [bind]. rewrite !ccen_half. destruct em as [t|].
    + intros ex ey Ex Ey. unfold item. rewrite Px, Py, Ex, Ey. cbn [bind]. do 2 f_equal; [|f_equal]; f_equal; ring.
    + unfold item. rewrite Px, Py. cbn [bind]. do 2 f_equal; [|f_equal]; f_equal; ring.
Qed.

(** what the fitter gets, and what becomes of its answer.  Entry (k, l) of the tables belongs to the offset ((ny-1)/2 - k, (nx-1)/2 - l). *)
Theorem C114_fit :
  forall e im1 im2 er1 er2 return_error zeromean nthreads use_np allow_huge ny nx,
  shape im1 = [ny; nx] -> shape im2 = [ny; nx] -> (0 < ny)%Z -> (0 < nx)%Z -> size_ok e allow_huge ny nx -> errim_ok er1 ny nx -> errim_ok er2 ny nx ->
  let f := prep zeromean im1 ny nx in let g := prep zeromean im2 ny nx in has_signal ny nx f g ->
  exists data errors,
    is_table data ny nx (fun k l => ccf ny nx f g ((ny - 1) / 2 - k) ((nx - 1) / 2 - l) / IZR (ny * nx)) /\
    match errors with
    | None => return_error = false
    | Some t => return_error = true /\ is_table t ny nx (fun k l => Fin (ccf_error_coded ny nx f g (sigma ny nx er1 f) (sigma ny nx er2 g) ((ny - 1) / 2 - k) ((nx - 1) / 2 - l)))
    end /\
    reports (fun fit => cross_correlation_shifts e (Some fit) im1 im2 er1 er2 None true return_error zeromean BWrap nthreads use_np allow_huge) ny nx data errors.
Proof.
  intros e im1 im2 er1 er2 re zm nt np huge ny nx H1 H2 Hy Hx Hh He1 He2 f g Hs.
  exists (rows ny nx (cmap ny nx f g)), (emap_of ny nx er1 er2 f g re). split; [apply rows_table; auto|]. split.
  - unfold emap_of. destruct re; [|reflexivity]. split; [reflexivity|]. rewrite (sigma_pixel_error ny nx er1 f), (sigma_pixel_error ny nx er2 g). apply rows_table; auto. intros k l _ _. apply emap_coded; auto.
  - intros fit. rewrite (gauss_call e fit im1 im2 er1 er2 re zm nt np huge ny nx) by auto. fold f g. apply (gauss_reports ny nx (cmap ny nx f g) (emap_of ny nx er1 er2 f g re) fit).
Qed.
Print Assumptions C114_fit.

(** *** a fitter that finds the maximum recovers every whole-pixel shift of even-sized images; on odd-sized axes half a pixel is added *)
(** with a strictly largest entry in row y, column x the fit converges there *)
Definition finds_maximum (fit : fitter) : Prop :=
  forall data errors ny nx m y x, is_table data ny nx m -> (0 <= y < ny)%Z -> (0 <= x < nx)%Z ->
    (forall k l, (0 <= k < ny)%Z -> (0 <= l < nx)%Z -> (k, l) <> (y, x) -> m k l < m y x) ->
    exists pars epars ex ey, fit data errors = Ok (pars, epars) /\ nth_error pars 2 = Some (IZR x) /\ nth_error pars 3 = Some (IZR y) /\
      nth_error epars 2 = Some ex /\ nth_error epars 3 = Some ey.

Lemma best_signal ny nx f g sy sx : (0 < ny)%Z -> (0 < nx)%Z -> best_roll ny nx f g sy sx -> ccf ny nx f g sy sx <> 0 -> has_signal ny nx f g.
Proof.
  intros Hy Hx Hb Hn. destruct (Rlt_dec 0 (ccf ny nx f g sy sx)) as [P|P].
  - left. exists sy, sx. exact P.
  - right. intros s t. destruct (Z.eq_dec ((s - sy) mod ny) 0) as [E|E]; [destruct (Z.eq_dec ((t - sx) mod nx) 0) as [E'|E']|].
    + rewrite (ccf_mod ny nx f g s t sy sx) by auto. lra.
    + assert (B := Hb s t (or_intror E')). lra.
    + assert (B := Hb s t (or_introl E)). lra.
Qed.
Theorem C114_unique_maximum :
  forall e (fit : fitter) im1 im2 er1 er2 return_error zeromean nthreads use_np allow_huge ny nx sy sx,
  finds_maximum fit -> shape im1 = [ny; nx] -> shape im2 = [ny; nx] -> (0 < ny)%Z -> (0 < nx)%Z -> size_ok e allow_huge ny nx -> errim_ok er1 ny nx -> errim_ok er2 ny nx ->
  (- (ny / 2) <= sy <= (ny - 1) / 2)%Z -> (- (nx / 2) <= sx <= (nx - 1) / 2)%Z ->
  let f := prep zeromean im1 ny nx in let g := prep zeromean im2 ny nx in
  best_roll ny nx f g sy sx -> ccf ny nx f g sy sx <> 0 ->
  exists rest,
    cross_correlation_shifts e (Some fit) im1 im2 er1 er2 None true return_error zeromean BWrap nthreads use_np allow_huge =
      Ok (XF (IZR sx + half_if_odd nx) :: XF (IZR sy + half_if_odd ny) :: rest) /\ length rest = if return_error then 2%nat else 0%nat.
Proof.
  intros e fit im1 im2 er1 er2 re zm nt np huge ny nx sy sx HF H1 H2 Hy Hx Hh He1 He2 Sy Sx f g Hb Hc.
  assert (Hs : has_signal ny nx f g) by (eapply best_signal; eauto).
  rewrite (gauss_call e fit im1 im2 er1 er2 re zm nt np huge ny nx) by auto. fold f g.
  assert (Ry : (0 <= (ny - 1) / 2 - sy < ny)%Z) by (Z.to_euclidean_division_equations; lia). assert (Rx : (0 <= (nx - 1) / 2 - sx < nx)%Z) by (Z.to_euclidean_division_equations; lia).
  assert (A := best_argmax ny nx f g sy sx Hy Hx Hb Ry Rx).
  destruct (HF (rows ny nx (cmap ny nx f g)) (emap_of ny nx er1 er2 f g re) ny nx (cmap ny nx f g) ((ny - 1) / 2 - sy)%Z ((nx - 1) / 2 - sx)%Z)
    as [pars [epars [ex [ey [E [Px [Py [Ex Ey]]]]]]]]; auto.
  { apply rows_table; auto. }
  { intros k l Hk Hl Hn. unfold cmap. unfold Rdiv. apply Rmult_lt_compat_r; [apply Rinv_0_lt_compat, size_pos; auto|].
    replace ((ny - 1) / 2 - ((ny - 1) / 2 - sy))%Z with sy by lia. replace ((nx - 1) / 2 - ((nx - 1) / 2 - sx))%Z with sx by lia.
    apply Hb. destruct (Z.eq_dec k ((ny - 1) / 2 - sy)) as [->|Ni].
    - right. intros F. assert (G : ((nx - 1) / 2 - l - sx = 0)%Z) by (apply (mod0_small nx); auto; lia). apply Hn. f_equal. lia.
    - left. intros F. assert (G : ((ny - 1) / 2 - k - sy = 0)%Z) by (apply (mod0_small ny); auto; lia). lia. }
  destruct (gauss_reports ny nx (cmap ny nx f g) (emap_of ny nx er1 er2 f g re) fit) as [_ GR]. specialize (GR pars epars _ _ E Px Py). cbv zeta in GR.
  assert (X : forall n s, IZR ((n - 1) / 2) - IZR ((n - 1) / 2 - s) + half_if_odd n = IZR s + half_if_odd n) by (intros; rewrite minus_IZR; ring).
  rewrite !X in GR. unfold emap_of in *. destruct re.
  - rewrite (GR ex ey Ex Ey). eexists. split; reflexivity.
  - rewrite GR. eexists. split; reflexivity.
Qed.
Print Assumptions C114_unique_maximum.

Corollary C114_roll_recovered_even :
  forall e (fit : fitter) im1 im2 er1 er2 zeromean nthreads use_np allow_huge ny nx dy dx,
  finds_maximum fit -> is_roll im1 im2 ny nx dy dx -> (0 < ny)%Z -> (0 < nx)%Z -> Z.even ny = true -> Z.even nx = true ->
  size_ok e allow_huge ny nx -> errim_ok er1 ny nx -> errim_ok er2 ny nx ->
  (- (ny / 2) <= dy <= (ny - 1) / 2)%Z -> (- (nx / 2) <= dx <= (nx - 1) / 2)%Z -> no_symmetry ny nx (prep zeromean im1 ny nx) ->
  cross_correlation_shifts e (Some fit) im1 im2 er1 er2 None true false zeromean BWrap nthreads use_np allow_huge = Ok [XF (IZR dx); XF (IZR dy)].
Proof.
  intros e fit im1 im2 er1 er2 zm nt np huge ny nx dy dx HF HR Hy Hx Ey Ex Hh He1 He2 Sy Sx Hn.
  assert (R := HR). destruct R as [H1 [H2 _]].
  assert (P := fun y x => prep_roll zm im1 im2 ny nx dy dx y x HR Hy Hx).
  assert (B := best_of_roll ny nx _ _ dy dx Hy Hx P Hn).
  assert (C : ccf ny nx (prep zm im1 ny nx) (prep zm im2 ny nx) dy dx <> 0).
  { rewrite (ccf_roll ny nx _ _ dy dx) by auto. rewrite !Z.sub_diag. intros Z.
    assert (Q : forall y x, (0 <= y < ny)%Z -> (0 <= x < nx)%Z -> prep zm im1 ny nx y x = 0).
    { intros y x HY HX. unfold ccf in Z. assert (W := sum2_nonneg_0 ny nx (fun i j => prep zm im1 ny nx ((i - 0) mod ny)%Z ((j - 0) mod nx)%Z * prep zm im1 ny nx i j)).
      specialize (fun a => W a Z y x HY HX). cbv beta in W. rewrite !Z.sub_0_r, !Z.mod_small in W by auto.
      assert (W' : prep zm im1 ny nx y x * prep zm im1 ny nx y x = 0).
      { apply W. intros i j Hi Hj. rewrite !Z.sub_0_r, !Z.mod_small by auto. nra. }
      nra. }
    destruct (Hn 1%Z 0%Z) as [M _]; [intros y x HY HX; rewrite !Q by (auto; apply Z.mod_pos_bound; auto); reflexivity|].
    assert (ny = 1%Z) by (destruct (Z.eq_dec ny 1); [auto|rewrite Z.mod_small in M; lia]). subst. discriminate. }
  destruct (C114_unique_maximum e fit im1 im2 er1 er2 false zm nt np huge ny nx dy dx) as [rest [-> L]]; auto.
  destruct rest; [|discriminate]. unfold half_if_odd. rewrite <- !Z.negb_even, Ey, Ex. cbn [negb]. rewrite !Rplus_0_r. reflexivity.
Qed.
Print Assumptions C114_roll_recovered_even.

(** *** the error map *)
Lemma ccf_const ny nx g c s t : (0 < ny)%Z -> (0 < nx)%Z -> sum2 ny nx (fun i j => g ((i - s) mod ny)%Z ((j - t) mod nx)%Z * c) = sum2 ny nx (fun i j => g i j * c).
Proof. intros Hy Hx. rewrite <- (sum2_shift ny nx (fun i j => g i j * c) (- s) (- t)) by auto. reflexivity. Qed.
(** it is the standard error of the correlation if all pixels of the second image have the same error *)
Theorem C114_error_map_uniform :
  forall ny nx f g s1 s2 c sy sx, (0 < ny)%Z -> (0 < nx)%Z -> (forall y x, (0 <= y < ny)%Z -> (0 <= x < nx)%Z -> s2 y x = c) ->
  ccf_error_coded ny nx f g s1 s2 sy sx = ccf_error ny nx f g s1 s2 sy sx.
Proof.
  intros ny nx f g s1 s2 c sy sx Hy Hx Hc. unfold ccf_error_coded, ccf_error. f_equal. f_equal. change (pixel_sum ny nx) with (sum2 ny nx). rewrite !sum2_plus. f_equal.
  rewrite (sum2_ext ny nx (fun i j => f i j ^ 2 * _) (fun i j => f i j ^ 2 * c ^ 2)) by (intros; rewrite Hc by (apply Z.mod_pos_bound; auto); reflexivity).
  rewrite <- (ccf_const ny nx (fun i j => f i j ^ 2) (c ^ 2) sy sx) by auto. apply sum2_ext. intros i j Hi Hj. rewrite Hc by auto. reflexivity.
Qed.
Print Assumptions C114_error_map_uniform.

(** FALSE with an error image for the second image: the second image is known exactly except at one pixel *)
Theorem C114_error_map_refuted :
  exists im1 im2 er1 er2, forall e nthreads use_np,
  let f := prep false im1 4 4 in let g := prep false im2 4 4 in
  exists data t k l row v, reports (fun fit => cross_correlation_shifts e (Some fit) im1 im2 (Some er1) (Some er2) None true true false BWrap nthreads use_np true) 4 4 data (Some t) /\
    (0 <= k < 4)%Z /\ (0 <= l < 4)%Z /\ nth_error t (Z.to_nat k) = Some row /\ nth_error row (Z.to_nat l) = Some v /\
    v <> Fin (ccf_error 4 4 f g (px er1) (px er2) ((4 - 1) / 2 - k) ((4 - 1) / 2 - l)).
Proof.
  exists (dot 4 4 1 1), (dot 4 4 2 2), (mk2 4 4 (fun _ _ => Fin 0)), (dot 4 4 2 2). intros e nt np f g.
  destruct (C114_fit e (dot 4 4 1 1) (dot 4 4 2 2) (Some (mk2 4 4 (fun _ _ => Fin 0))) (Some (dot 4 4 2 2)) true false nt np true 4 4 eq_refl eq_refl ltac:(lia) ltac:(lia)
    (or_introl eq_refl) eq_refl eq_refl C49_nonvacuous) as [data [[t|] [_ [T R]]]]; [|discriminate].
  destruct T as [_ T]. exists data, t, 0%Z, 0%Z. destruct T as [_ [_ T]]. destruct (T 0%Z 0%Z) as [row [E1 E2]]; [lia|lia|]. exists row. eexists. split; [exact R|]. split; [lia|]. split; [lia|]. split; [exact E1|]. split; [exact E2|].
  intros Q. injection Q as Q. unfold ccf_error, ccf_error_coded in Q. change (pixel_sum 4 4) with (sum2 4 4) in Q.
  change ((4 - 1) / 2 - 0)%Z with 1%Z in Q. cbn [sigma] in Q.
  assert (D : forall a b y x, prep false (dot 4 4 a b) 4 4 y x = if ((y =? a) && (x =? b))%Z then 1 else 0) by (intros; apply dot_prep).
  assert (D' : forall a b y x, px (dot 4 4 a b) y x = if ((y =? a) && (x =? b))%Z then 1 else 0) by reflexivity.
  unfold sum2, sumR, sumG in Q. change (Z.to_nat 4) with 4%nat in Q. cbn [sum_nat] in Q. rewrite !D, !D' in Q. cbn in Q.
  rewrite ?Rmult_0_l, ?Rmult_0_r, ?Rmult_1_l, ?Rmult_1_r, ?Rplus_0_l, ?Rplus_0_r in Q. rewrite sqrt_0, sqrt_1 in Q. lra.
Qed.
Print Assumptions C114_error_map_refuted.

(** *** units: if the fitted position does not depend on the scale of the data, the offsets do not depend on the scale of the images *)
Theorem C114_scale_ignored :
  forall e (fit : fitter) im1 im2 er1 er2 zeromean nthreads use_np allow_huge ny nx k1 k2,
  (forall data k, 0 < k -> match fit data None, fit (map (map (Rmult k)) data) None with
     | Ok (p, _), Ok (p', _) => nth_error p 2 = nth_error p' 2 /\ nth_error p 3 = nth_error p' 3
     | Raise x, Raise x' => x = x' | _, _ => False end) ->
  shape im1 = [ny; nx] -> shape im2 = [ny; nx] -> (0 < ny)%Z -> (0 < nx)%Z -> size_ok e allow_huge ny nx -> errim_ok er1 ny nx -> errim_ok er2 ny nx ->
  has_signal ny nx (prep zeromean im1 ny nx) (prep zeromean im2 ny nx) -> 0 < k1 * k2 ->
  cross_correlation_shifts e (Some fit) (scale_img k1 im1) (scale_img k2 im2) er1 er2 None true false zeromean BWrap nthreads use_np allow_huge =
  cross_correlation_shifts e (Some fit) im1 im2 er1 er2 None true false zeromean BWrap nthreads use_np allow_huge.
Proof.
  intros e fit im1 im2 er1 er2 zm nt np huge ny nx k1 k2 HF H1 H2 Hy Hx Hh He1 He2 Hs Hk.
  assert (C : forall s t, ccf ny nx (prep zm (scale_img k1 im1) ny nx) (prep zm (scale_img k2 im2) ny nx) s t = k1 * k2 * ccf ny nx (prep zm im1 ny nx) (prep zm im2 ny nx) s t).
  { intros s t. apply ccf_scale; auto; intros; apply prep_scale. }
  assert (Hs' : has_signal ny nx (prep zm (scale_img k1 im1) ny nx) (prep zm (scale_img k2 im2) ny nx)).
  { destruct Hs as [[s [t P]]|P]; [left; exists s, t; rewrite C; apply Rmult_lt_0_compat; auto|right; intros s t; rewrite C].
    specialize (P s t). apply (Rmult_lt_compat_l (k1 * k2)) in P; auto. lra. }
  rewrite (gauss_call e fit im1 im2 er1 er2 false zm nt np huge ny nx) by auto.
  rewrite (gauss_call e fit (scale_img k1 im1) (scale_img k2 im2) er1 er2 false zm nt np huge ny nx) by auto. cbn [emap_of].
  unfold gauss_shifts. set (m := cmap ny nx (prep zm im1 ny nx) (prep zm im2 ny nx)).
  replace (rows ny nx (cmap ny nx (prep zm (scale_img k1 im1) ny nx) (prep zm (scale_img k2 im2) ny nx))) with (map (map (Rmult (k1 * k2))) (rows ny nx m)).
  - specialize (HF (rows ny nx m) (k1 * k2) Hk). cbn [emap_of]. destruct (fit (rows ny nx m) None) as [[p ep]|x]; destruct (fit (map _ _) None) as [[p' ep']|x']; try contradiction; [|rewrite HF; reflexivity].
    cbn [bind]. unfold item. destruct HF as [-> ->]. reflexivity.
  - unfold rows. rewrite map_map. apply map_ext. intros i. rewrite map_map. apply map_ext. intros j. unfold m, cmap. rewrite C. unfold Rdiv. ring.
Qed.
Print Assumptions C114_scale_ignored.

(** a fitter with these properties: it returns the position of the largest value *)
Definition entry (data : list (list R)) (k l : Z) : R := nth (Z.to_nat l) (nth (Z.to_nat k) data []) 0.
Definition peak_fitter : fitter := fun data _ =>
  let ny := Z.of_nat (length data) in let nx := Z.of_nat (length (nth 0 data [])) in
  if (ny =? 0)%Z || (nx =? 0)%Z then Raise ValueError else
  let '(y, x) := argmax2 ny nx (entry data) in Ok ([0; 1; IZR x; IZR y; 1; 1; 0], [1; 1; 1; 1; 1; 1; 1]).
Lemma peak_finds : finds_maximum peak_fitter.
Proof.
  intros data er ny nx m y x [L [F T]] Hy Hx HM. unfold peak_fitter. rewrite L.
  assert (N : Z.of_nat (length (nth 0 data [])) = nx).
  { destruct data as [|r data]; [cbn in L; lia|]. inversion F; subst. reflexivity. }
  rewrite N. destruct (Z.eqb_spec ny 0); [lia|]. destruct (Z.eqb_spec nx 0); [lia|]. cbn [orb].
  assert (E : forall k l, (0 <= k < ny)%Z -> (0 <= l < nx)%Z -> entry data k l = m k l).
  { intros k l Hk Hl. destruct (T k l Hk Hl) as [row [E1 E2]]. unfold entry. rewrite (nth_error_nth _ _ _ E1). apply nth_error_nth. exact E2. }
  replace (argmax2 ny nx (entry data)) with (y, x).
  - do 4 eexists. repeat split; reflexivity.
  - symmetry. apply argmin2_strict; auto; try lia. intros i j Hi Hj Hn. rewrite !E by auto. apply Ropp_lt_contravar. apply HM; auto.
Qed.
Lemma peak_scale data k : 0 < k -> match peak_fitter data None, peak_fitter (map (map (Rmult k)) data) None with
     | Ok (p, _), Ok (p', _) => nth_error p 2 = nth_error p' 2 /\ nth_error p 3 = nth_error p' 3
     | Raise x, Raise x' => x = x' | _, _ => False end.
Proof.
  intros Hk. unfold peak_fitter. rewrite map_length. assert (N : length (nth 0 (map (map (Rmult k)) data) []) = length (nth 0 data [])) by (destruct data; cbn; rewrite ?map_length; reflexivity).
  rewrite N. set (ny := Z.of_nat (length data)). set (nx := Z.of_nat (length (nth 0 data []))).
  destruct (Z.eqb_spec ny 0) as [|Ny]; [reflexivity|]. destruct (Z.eqb_spec nx 0) as [|Nx]; [reflexivity|]. cbn [orb].
  replace (argmax2 ny nx (entry (map (map (Rmult k)) data))) with (argmax2 ny nx (entry data)).
  - destruct (argmax2 ny nx (entry data)). split; reflexivity.
  - symmetry. apply argmin2_mono; try (unfold ny, nx in *; lia). intros a b c d _ _ _ _.
    assert (E : forall i j, entry (map (map (Rmult k)) data) i j = k * entry data i j).
    { intros i j. unfold entry. change (@nil R) with (map (Rmult k) []) at 1. rewrite map_nth. rewrite <- (Rmult_0_r k) at 1. apply map_nth. }
    rewrite !E. split; intros H.
    + apply (Rmult_lt_reg_l k); auto. lra.
    + apply (Rmult_lt_compat_l k) in H; auto. lra.
Qed.
(** on the pair on which the default method is half a pixel off (C45_last_row_refuted) the fit gives the right answer *)
Example C114_nonvacuous : finds_maximum peak_fitter /\ is_roll (dot 4 4 3 1) (dot 4 4 1 1) 4 4 (-2) 0 /\ no_symmetry 4 4 (prep false (dot 4 4 3 1) 4 4) /\
  forall e nthreads use_np, cross_correlation_shifts e (Some peak_fitter) (dot 4 4 3 1) (dot 4 4 1 1) None None None true false false BWrap nthreads use_np true = Ok [XF 0; XF (-2)].
Proof.
  assert (R : is_roll (dot 4 4 3 1) (dot 4 4 1 1) 4 4 (-2) 0).
  { split; [reflexivity|]. split; [reflexivity|]. intros y x Hy Hx. cbn [dot mk2 get]. f_equal.
    assert (C : forall z, (0 <= z < 4)%Z -> (z = 0 \/ z = 1 \/ z = 2 \/ z = 3)%Z) by (intros; lia).
    destruct (C y Hy) as [->|[->|[->| ->]]]; destruct (C x Hx) as [->|[->|[->| ->]]]; reflexivity. }
  assert (S : no_symmetry 4 4 (prep false (dot 4 4 3 1) 4 4)) by (apply dot_no_symmetry; lia).
  split; [exact peak_finds|]. split; [exact R|]. split; [exact S|]. intros e nt np.
  apply (C114_roll_recovered_even e peak_fitter _ _ None None false nt np true 4 4 (-2) 0 peak_finds R); try reflexivity; try lia; try exact I; try (cbn; lia); [left; reflexivity|exact S].
Qed.
