(** Properties C34-C37: chi2n_map *)
From Coq Require Import ZArith Lia List Reals Lra Bool.
From Coquelicot Require Import Complex.
From Verif Require Import Base NDim DFT Kernel Py M_fast_ffts M_shift M_scale M_zoom M_downsample M_convolve M_correlate Arg M_chi2
  Spec L_shift L_convolve Sum2 Spec2 L_correlate L_chi2.
Import ListNotations.
Open Scope R_scope.

(** the chi2 array in a result of chi2n_map *)
Definition chi2_of_res (r : chi2res) : arr R := match r with Chi2Only c => c | Chi2All c _ _ _ => c end.

(** *** C34: entry (k, l) is the chi-squared of im2 against im1 rolled by (cy - k, cx - l), cy = (ny-1)//2, cx = (nx-1)//2 *)
Theorem C34_scalar_error :
  forall e im1 im2 err s nthreads zeromean use_np return_all allow_huge ny nx,
  shape im1 = [ny; nx] -> shape im2 = [ny; nx] -> (0 < ny)%Z -> (0 < nx)%Z -> size_ok e allow_huge ny nx ->
  (err = ErrNone /\ s = 1 \/ err = ErrScalar s /\ s <> 0) ->
  exists r, chi2n_map e im1 im2 err BWrap nthreads zeromean use_np return_all false allow_huge = Ok r /\
    shape (chi2_of_res r) = [ny; nx] /\
    forall k l, (0 <= k < ny)%Z -> (0 <= l < nx)%Z ->
      g2 (chi2_of_res r) k l =
        chi2_of ny nx (prep zeromean im1 ny nx) (prep zeromean im2 ny nx) (fun _ _ => s) ((ny - 1) / 2 - k) ((nx - 1) / 2 - l).
Proof.
  intros e im1 im2 err s nt zm np ra huge ny nx H1 H2 Hy Hx Hh Hs.
  assert (He : err_ok err ny nx) by (destruct Hs as [[-> ->]|[-> H]]; simpl; auto).
  destruct (chi2n_map_ok e im1 im2 err nt zm np ra false huge ny nx H1 H2 Hy Hx He Hh ltac:(discriminate)) as [c [t1 [t2 [t3 [E [S1 [S2 [_ V]]]]]]]].
  exists (if ra then Chi2All c t1 t2 t3 else Chi2Only c). split; [exact E|].
  replace (chi2_of_res (if ra then Chi2All c t1 t2 t3 else Chi2Only c)) with c by (destruct ra; reflexivity).
  split; [exact S1|]. intros k l Hk Hl. destruct (V k l Hk Hl) as [_ [_ V3]]. rewrite V3.
  destruct Hs as [[-> ->]|[-> Hs]]; reflexivity.
Qed.
Print Assumptions C34_scalar_error.

Theorem C34_error_array :
  forall e im1 im2 err nthreads zeromean use_np return_all allow_huge ny nx,
  shape im1 = [ny; nx] -> shape im2 = [ny; nx] -> shape err = [ny; nx] -> (0 < ny)%Z -> (0 < nx)%Z -> size_ok e allow_huge ny nx ->
  (forall y x, (0 <= y < ny)%Z -> (0 <= x < nx)%Z -> px err y x <> 0) ->
  exists r, chi2n_map e im1 im2 (ErrArr err) BWrap nthreads zeromean use_np return_all false allow_huge = Ok r /\
    shape (chi2_of_res r) = [ny; nx] /\
    forall k l, (0 <= k < ny)%Z -> (0 <= l < nx)%Z ->
      g2 (chi2_of_res r) k l =
        chi2_of ny nx (prep zeromean im1 ny nx) (prep zeromean im2 ny nx) (px err) ((ny - 1) / 2 - k) ((nx - 1) / 2 - l).
Proof.
  intros e im1 im2 er nt zm np ra huge ny nx H1 H2 H3 Hy Hx Hh Hnz.
  destruct (chi2n_map_ok e im1 im2 (ErrArr er) nt zm np ra false huge ny nx H1 H2 Hy Hx H3 Hh ltac:(discriminate)) as [c [t1 [t2 [t3 [E [S1 [S2 [_ V]]]]]]]].
  exists (if ra then Chi2All c t1 t2 t3 else Chi2Only c). split; [exact E|].
  replace (chi2_of_res (if ra then Chi2All c t1 t2 t3 else Chi2Only c)) with c by (destruct ra; reflexivity).
  split; [exact S1|]. intros k l Hk Hl. destruct (V k l Hk Hl) as [_ [_ V3]]. rewrite V3.
  apply sum2_ext. intros i j Hi Hj.
  assert (Ez : forall y x, (0 <= y < ny)%Z -> (0 <= x < nx)%Z -> err_zero (ErrArr er) y x = false).
  { intros y x HY HX. unfold err_zero. destruct (Req_EM_T (px er y x) 0); auto. exfalso. apply (Hnz y x); auto. }
  unfold used_image, sigma_of. rewrite !Ez by (auto; apply Z.mod_pos_bound; auto). reflexivity.
Qed.
Print Assumptions C34_error_array.

Example C34_nonvacuous : let im := mk2 2 3 (fun y x => if (x =? 2)%Z then NaN else Fin (IZR (y + x))) in
  let er := mk2 2 3 (fun y x => Fin (IZR (1 + y))) in
  shape im = [2; 3]%Z /\ (forall y x, (0 <= y < 2)%Z -> (0 <= x < 3)%Z -> px er y x <> 0) /\
  chi2_of 2 3 (prep false im 2 3) (prep false im 2 3) (px er) 0 1 = 7 / 2.
Proof.
  cbv zeta. split; [reflexivity|]. split.
  - intros y x Hy Hx. change (IZR (1 + y) <> 0). apply IZR_neq0. lia.
  - cbv - [Rplus Rmult Rminus Rdiv Rinv IZR pow]. field.
Qed.

(** *** C35: non-negative; zero exactly at a perfect match; the reduced map *)
Theorem C35_nonnegative_and_zero_at_match :
  forall e im1 im2 err nthreads zeromean use_np return_all allow_huge ny nx,
  shape im1 = [ny; nx] -> shape im2 = [ny; nx] -> (0 < ny)%Z -> (0 < nx)%Z -> size_ok e allow_huge ny nx ->
  err_ok err ny nx -> (forall y x, (0 <= y < ny)%Z -> (0 <= x < nx)%Z -> err_zero err y x = false) ->
  exists r, chi2n_map e im1 im2 err BWrap nthreads zeromean use_np return_all false allow_huge = Ok r /\
    forall k l, (0 <= k < ny)%Z -> (0 <= l < nx)%Z ->
      0 <= g2 (chi2_of_res r) k l /\
      (g2 (chi2_of_res r) k l = 0 <->
       forall y x, (0 <= y < ny)%Z -> (0 <= x < nx)%Z ->
         prep zeromean im2 ny nx y x =
         prep zeromean im1 ny nx ((y - ((ny - 1) / 2 - k)) mod ny) ((x - ((nx - 1) / 2 - l)) mod nx)).
Proof.
  intros e im1 im2 err nt zm np ra huge ny nx H1 H2 Hy Hx Hh He Hnz.
  destruct (chi2n_map_ok e im1 im2 err nt zm np ra false huge ny nx H1 H2 Hy Hx He Hh ltac:(discriminate)) as [c [t1 [t2 [t3 [E [S1 [S2 [_ V]]]]]]]].
  exists (if ra then Chi2All c t1 t2 t3 else Chi2Only c). split; [exact E|].
  replace (chi2_of_res (if ra then Chi2All c t1 t2 t3 else Chi2Only c)) with c by (destruct ra; reflexivity).
  intros k l Hk Hl. destruct (V k l Hk Hl) as [_ [_ V3]]. rewrite V3. unfold chi2_of. change (pixel_sum ny nx) with (sum2 ny nx).
  set (F := fun i j => _ ^ 2).
  assert (Hp : forall i j, (0 <= i < ny)%Z -> (0 <= j < nx)%Z -> 0 <= F i j) by (intros; unfold F; apply pow2_ge_0).
  assert (HF : forall y x, (0 <= y < ny)%Z -> (0 <= x < nx)%Z -> (F y x = 0 <-> prep zm im2 ny nx y x =
         prep zm im1 ny nx ((y - ((ny - 1) / 2 - k)) mod ny) ((x - ((nx - 1) / 2 - l)) mod nx))).
  { intros y x HY HX. unfold F, used_image. rewrite !Hnz by (auto; apply Z.mod_pos_bound; auto).
    assert (Hs := sigma_nz err ny nx y x He). set (d := prep zm im2 ny nx y x - _).
    assert (D : (d / sigma_of err y x) ^ 2 = 0 <-> d = 0).
    { split; intros G; [|rewrite G; unfold Rdiv; ring]. simpl in G. rewrite Rmult_1_r in G. apply Rsqr_0_uniq in G.
      replace d with (d / sigma_of err y x * sigma_of err y x) by (field; auto). rewrite G. ring. }
    rewrite D. unfold d. split; intros; lra. }
  split; [apply sum2_nonneg; auto|]. split.
  - intros E0 y x HY HX. apply HF; auto. apply (sum2_nonneg_0 ny nx F); auto.
  - intros G. apply sum2_const0. intros y x HY HX. apply HF; auto.
Qed.
Print Assumptions C35_nonnegative_and_zero_at_match.

Theorem C35_reduced_map :
  forall e im1 im2 err nthreads zeromean use_np return_all allow_huge ny nx,
  shape im1 = [ny; nx] -> shape im2 = [ny; nx] -> (0 < ny)%Z -> (0 < nx)%Z -> size_ok e allow_huge ny nx ->
  err_ok err ny nx -> (ny * nx <> 2)%Z ->
  exists r r', chi2n_map e im1 im2 err BWrap nthreads zeromean use_np return_all false allow_huge = Ok r /\
    chi2n_map e im1 im2 err BWrap nthreads zeromean use_np return_all true allow_huge = Ok r' /\
    forall k l, (0 <= k < ny)%Z -> (0 <= l < nx)%Z ->
      g2 (chi2_of_res r') k l = g2 (chi2_of_res r) k l / (IZR (ny * nx) - 2).
Proof.
  intros e im1 im2 err nt zm np ra huge ny nx H1 H2 Hy Hx Hh He Hn.
  destruct (chi2n_map_ok e im1 im2 err nt zm np ra false huge ny nx H1 H2 Hy Hx He Hh ltac:(discriminate)) as [c [t1 [t2 [t3 [E [S1 [S2 [_ V]]]]]]]].
  destruct (chi2n_map_ok e im1 im2 err nt zm np ra true huge ny nx H1 H2 Hy Hx He Hh ltac:(auto)) as [c' [t1' [t2' [t3' [E' [S1' [S2' [_ V']]]]]]]].
  exists (if ra then Chi2All c t1 t2 t3 else Chi2Only c), (if ra then Chi2All c' t1' t2' t3' else Chi2Only c').
  split; [exact E|]. split; [exact E'|].
  replace (chi2_of_res (if ra then Chi2All c t1 t2 t3 else Chi2Only c)) with c by (destruct ra; reflexivity).
  replace (chi2_of_res (if ra then Chi2All c' t1' t2' t3' else Chi2Only c')) with c' by (destruct ra; reflexivity).
  intros k l Hk Hl. destruct (V k l Hk Hl) as [_ [_ V3]]. destruct (V' k l Hk Hl) as [_ [_ V3']]. rewrite V3, V3'. reflexivity.
Qed.
Print Assumptions C35_reduced_map.

Example C35_nonvacuous : let im := mk2 2 2 (fun y x => Fin (IZR (y + x))) in
  err_ok (ErrScalar (-2)) 2 2 /\ (forall y x, err_zero (ErrScalar (-2)) y x = false) /\ (2 * 2 <> 2)%Z /\
  chi2_of 2 2 (prep true im 2 2) (prep true im 2 2) (fun _ _ => -2) 1 0 = 1.
Proof. cbv zeta. repeat split; try (simpl; lra); try lia. cbv - [Rplus Rmult Rminus Rdiv Rinv IZR pow]. field. Qed.

(** *** C36: pixels with zero or NaN error *)
(** their data values have no influence on the map, at any shift *)
Theorem C36_values_at_masked_pixels_irrelevant :
  forall e im1 im2 jm1 jm2 err nthreads use_np return_all allow_huge ny nx,
  shape im1 = [ny; nx] -> shape im2 = [ny; nx] -> shape jm1 = [ny; nx] -> shape jm2 = [ny; nx] -> shape err = [ny; nx] ->
  (0 < ny)%Z -> (0 < nx)%Z -> size_ok e allow_huge ny nx ->
  (forall y x, (0 <= y < ny)%Z -> (0 <= x < nx)%Z -> px err y x <> 0 -> px jm1 y x = px im1 y x /\ px jm2 y x = px im2 y x) ->
  exists r r', chi2n_map e im1 im2 (ErrArr err) BWrap nthreads false use_np return_all false allow_huge = Ok r /\
    chi2n_map e jm1 jm2 (ErrArr err) BWrap nthreads false use_np return_all false allow_huge = Ok r' /\
    forall k l, (0 <= k < ny)%Z -> (0 <= l < nx)%Z -> g2 (chi2_of_res r') k l = g2 (chi2_of_res r) k l.
Proof.
  intros e im1 im2 jm1 jm2 er nt np ra huge ny nx H1 H2 J1 J2 H3 Hy Hx Hh Hs.
  destruct (chi2n_map_ok e im1 im2 (ErrArr er) nt false np ra false huge ny nx H1 H2 Hy Hx H3 Hh ltac:(discriminate)) as [c [t1 [t2 [t3 [E [S1 [S2 [_ V]]]]]]]].
  destruct (chi2n_map_ok e jm1 jm2 (ErrArr er) nt false np ra false huge ny nx J1 J2 Hy Hx H3 Hh ltac:(discriminate)) as [c' [t1' [t2' [t3' [E' [S1' [S2' [_ V']]]]]]]].
  exists (if ra then Chi2All c t1 t2 t3 else Chi2Only c), (if ra then Chi2All c' t1' t2' t3' else Chi2Only c').
  split; [exact E|]. split; [exact E'|].
  replace (chi2_of_res (if ra then Chi2All c t1 t2 t3 else Chi2Only c)) with c by (destruct ra; reflexivity).
  replace (chi2_of_res (if ra then Chi2All c' t1' t2' t3' else Chi2Only c')) with c' by (destruct ra; reflexivity).
  assert (P0 : forall a y x, prep false a ny nx y x = px a y x) by reflexivity.
  assert (U : forall y x, (0 <= y < ny)%Z -> (0 <= x < nx)%Z ->
    used_image false (ErrArr er) jm1 ny nx y x = used_image false (ErrArr er) im1 ny nx y x /\
    used_image false (ErrArr er) jm2 ny nx y x = used_image false (ErrArr er) im2 ny nx y x).
  { intros y x HY HX. unfold used_image, err_zero. destruct (Req_EM_T (px er y x) 0); auto. rewrite !P0. apply Hs; auto. }
  intros k l Hk Hl. destruct (V k l Hk Hl) as [_ [_ V3]]. destruct (V' k l Hk Hl) as [_ [_ V3']]. rewrite V3, V3'.
  apply sum2_ext. intros i j Hi Hj. destruct (U i j Hi Hj) as [_ ->]. destruct (U ((i - ((ny - 1) / 2 - k)) mod ny)%Z ((j - ((nx - 1) / 2 - l)) mod nx)%Z) as [-> _];
  auto; apply Z.mod_pos_bound; auto.
Qed.
Print Assumptions C36_values_at_masked_pixels_irrelevant.

(** at zero shift the map is the chi-squared over the remaining pixels only *)
Definition chi2_unmasked (ny nx : Z) (ref img : Z -> Z -> R) (err : arr num) (sy sx : Z) : R :=
  pixel_sum ny nx (fun i j => if Req_EM_T (px err i j) 0 then 0
     else ((img i j - ref ((i - sy) mod ny)%Z ((j - sx) mod nx)%Z) / px err i j) ^ 2).
Theorem C36_masked_pixels_excluded_at_zero_shift :
  forall e im1 im2 err nthreads zeromean use_np return_all allow_huge ny nx,
  shape im1 = [ny; nx] -> shape im2 = [ny; nx] -> shape err = [ny; nx] -> (0 < ny)%Z -> (0 < nx)%Z -> size_ok e allow_huge ny nx ->
  exists r, chi2n_map e im1 im2 (ErrArr err) BWrap nthreads zeromean use_np return_all false allow_huge = Ok r /\
    g2 (chi2_of_res r) ((ny - 1) / 2) ((nx - 1) / 2) =
      chi2_unmasked ny nx (prep zeromean im1 ny nx) (prep zeromean im2 ny nx) err 0 0.
Proof.
  intros e im1 im2 er nt zm np ra huge ny nx H1 H2 H3 Hy Hx Hh.
  destruct (chi2n_map_ok e im1 im2 (ErrArr er) nt zm np ra false huge ny nx H1 H2 Hy Hx H3 Hh ltac:(discriminate)) as [c [t1 [t2 [t3 [E [S1 [S2 [_ V]]]]]]]].
  exists (if ra then Chi2All c t1 t2 t3 else Chi2Only c). split; [exact E|].
  replace (chi2_of_res (if ra then Chi2All c t1 t2 t3 else Chi2Only c)) with c by (destruct ra; reflexivity).
  destruct (V ((ny - 1) / 2)%Z ((nx - 1) / 2)%Z) as [_ [_ V3]]; try (Z.to_euclidean_division_equations; lia).
  rewrite V3. apply sum2_ext. intros i j Hi Hj. rewrite !Z.sub_diag. unfold used_image, sigma_of, err_zero.
  rewrite !Z.sub_0_r. rewrite !Z.mod_small by auto. destruct (Req_EM_T (px er i j) 0); [unfold Rdiv; ring|reflexivity].
Qed.
Print Assumptions C36_masked_pixels_excluded_at_zero_shift.

(** ... but not at other shifts: the masked pixel is compared (with weight 1) to the shifted reference *)
Theorem C36_masked_pixels_excluded_refuted :
  exists (im1 im2 err : arr num) (ny nx k l : Z), shape im1 = [ny; nx] /\ shape im2 = [ny; nx] /\ shape err = [ny; nx] /\
    (0 <= k < ny)%Z /\ (0 <= l < nx)%Z /\
    forall e nthreads use_np return_all, exists r,
      chi2n_map e im1 im2 (ErrArr err) BWrap nthreads false use_np return_all false true = Ok r /\
      g2 (chi2_of_res r) k l <>
        chi2_unmasked ny nx (prep false im1 ny nx) (prep false im2 ny nx) err ((ny - 1) / 2 - k) ((nx - 1) / 2 - l).
Proof.
  pose (im1 := mk2 1 2 (fun _ x => if (x =? 0)%Z then Fin 0 else Fin 3)).
  pose (im2 := mk2 1 2 (fun _ x => Fin 0)).
  pose (er := mk2 1 2 (fun _ x => if (x =? 0)%Z then NaN else Fin 1)).
  exists im1, im2, er, 1%Z, 2%Z, 0%Z, 1%Z. repeat split; try lia. intros e nt np ra.
  destruct (chi2n_map_ok e im1 im2 (ErrArr er) nt false np ra false true 1 2) as [c [t1 [t2 [t3 [E [S1 [S2 [_ V]]]]]]]]; try reflexivity; try lia; try discriminate.
  { left; reflexivity. }
  exists (if ra then Chi2All c t1 t2 t3 else Chi2Only c). split; [exact E|].
  replace (chi2_of_res (if ra then Chi2All c t1 t2 t3 else Chi2Only c)) with c by (destruct ra; reflexivity).
  destruct (V 0%Z 1%Z ltac:(lia) ltac:(lia)) as [_ [_ V3]]. rewrite V3.
  unfold chi2_of, chi2_unmasked, used_image, sigma_of, err_zero.
  change (pixel_sum 1 2) with (sum2 1 2). unfold sum2.
  change (sumR 1 ?f) with (0 + f 0%Z). change (sumR 2 ?f) with (0 + f 0%Z + f 1%Z). cbv beta.
  change (px er 0 0) with 0. change (px er 0 1) with 1.
  change (px er ((0 - ((1 - 1) / 2 - 0)) mod 1) ((0 - ((2 - 1) / 2 - 1)) mod 2)) with 1.
  change (px er ((0 - ((1 - 1) / 2 - 0)) mod 1) ((1 - ((2 - 1) / 2 - 1)) mod 2)) with 0.
  destruct (Req_EM_T 0 0); [|lra]. destruct (Req_EM_T 1 0); [lra|].
  change (prep false im1 1 2 ((0 - ((1 - 1) / 2 - 0)) mod 1) ((0 - ((2 - 1) / 2 - 1)) mod 2)) with 3.
  change (prep false im1 1 2 ((0 - ((1 - 1) / 2 - 0)) mod 1) ((1 - ((2 - 1) / 2 - 1)) mod 2)) with 0.
  change (prep false im2 1 2 0 1) with 0. lra.
Qed.
Print Assumptions C36_masked_pixels_excluded_refuted.

Example C36_nonvacuous : exists im1 im2 jm1 jm2 err : arr num,
  shape im1 = [2; 2]%Z /\ shape jm1 = [2; 2]%Z /\ px jm1 0 0 <> px im1 0 0 /\ px err 0 0 = 0 /\ px err 1 1 = 1 /\
  (forall y x, (0 <= y < 2)%Z -> (0 <= x < 2)%Z -> px err y x <> 0 -> px jm1 y x = px im1 y x /\ px jm2 y x = px im2 y x).
Proof.
  exists (mk2 2 2 (fun y x => Fin (IZR (y + x)))), (mk2 2 2 (fun y x => Fin (IZR (y + x)))),
    (mk2 2 2 (fun y x => if (y + x =? 0)%Z then Fin 7 else Fin (IZR (y + x)))), (mk2 2 2 (fun y x => if (y + x =? 0)%Z then NaN else Fin (IZR (y + x)))),
    (mk2 2 2 (fun y x => if (y + x =? 0)%Z then Fin 0 else Fin 1)).
  repeat split; try (unfold px; simpl; lra); unfold px in *; simpl in *; destruct (y + x =? 0)%Z; lra.
Qed.

(** *** C37: argument handling *)
Theorem C37_shape_mismatch_raises :
  forall e im1 im2 err b nthreads zm np ra rd huge,
  shape im1 <> shape im2 -> chi2n_map e im1 im2 err b nthreads zm np ra rd huge = Raise ValueError.
Proof.
  intros. unfold chi2n_map. destruct (list_eq_dec Z.eq_dec (shape im1) (shape im2)); [contradiction|reflexivity].
Qed.
Print Assumptions C37_shape_mismatch_raises.

Theorem C37_return_all_terms :
  forall e im1 im2 err nthreads zeromean use_np allow_huge ny nx,
  shape im1 = [ny; nx] -> shape im2 = [ny; nx] -> (0 < ny)%Z -> (0 < nx)%Z -> size_ok e allow_huge ny nx -> err_ok err ny nx ->
  exists chi2 t1 t2 t3,
    chi2n_map e im1 im2 err BWrap nthreads zeromean use_np true false allow_huge = Ok (Chi2All chi2 t1 t2 t3) /\
    chi2n_map e im1 im2 err BWrap nthreads zeromean use_np false false allow_huge = Ok (Chi2Only chi2) /\
    shape chi2 = [ny; nx] /\ shape t2 = [ny; nx] /\
    t1 = pixel_sum ny nx (fun i j => (used_image zeromean err im2 ny nx i j / sigma_of err i j) ^ 2) /\
    forall k l, (0 <= k < ny)%Z -> (0 <= l < nx)%Z ->
      g2 chi2 k l = t1 + g2 t2 k l + match t3 with T3scalar r => r | T3array a => g2 a k l end.
Proof.
  intros e im1 im2 err nt zm np huge ny nx H1 H2 Hy Hx Hh He.
  destruct (chi2n_map_ok e im1 im2 err nt zm np true false huge ny nx H1 H2 Hy Hx He Hh ltac:(discriminate)) as [c [t1 [t2 [t3 [E [S1 [S2 [T V]]]]]]]].
  exists c, t1, t2, t3. split; [exact E|]. split.
  - unfold chi2n_map in *. destruct (negb _); [discriminate|].
    destruct err as [|s|er].
    + destruct (correlate2d _ _ _ _ _ _ _ _); [|discriminate]. cbn [bind] in *. injection E as <- <- <- <-. reflexivity.
    + destruct (Req_EM_T s 0); [discriminate|]. destruct (correlate2d _ _ _ _ _ _ _ _); [|discriminate]. cbn [bind] in *. injection E as <- <- <- <-. reflexivity.
    + destruct (negb _); [discriminate|]. cbv zeta in *. destruct (correlate2d _ _ _ (fin_arr _ (fun i => 1 / _)) _ _ _ _); [|discriminate]. cbn [bind] in *.
      destruct (correlate2d _ _ _ _ _ _ _ _); [|discriminate]. cbn [bind] in *. injection E as <- <- <- <-. reflexivity.
  - split; [exact S1|]. split; [exact S2|]. split; [exact T|]. intros k l Hk Hl. destruct (V k l Hk Hl) as [_ [A B]]. congruence.
Qed.
Print Assumptions C37_return_all_terms.

(** only |err| matters *)
Theorem C37_negative_errors_act_as_positive :
  forall e im1 im2 err err' nthreads zeromean use_np return_all allow_huge ny nx,
  shape im1 = [ny; nx] -> shape im2 = [ny; nx] -> (0 < ny)%Z -> (0 < nx)%Z -> size_ok e allow_huge ny nx ->
  (exists s, s <> 0 /\ err = ErrScalar s /\ err' = ErrScalar (Rabs s)) \/
  (exists er er', err = ErrArr er /\ err' = ErrArr er' /\ shape er = [ny; nx] /\ shape er' = [ny; nx] /\
     forall y x, (0 <= y < ny)%Z -> (0 <= x < nx)%Z -> px er' y x = Rabs (px er y x)) ->
  exists r r', chi2n_map e im1 im2 err BWrap nthreads zeromean use_np return_all false allow_huge = Ok r /\
    chi2n_map e im1 im2 err' BWrap nthreads zeromean use_np return_all false allow_huge = Ok r' /\
    forall k l, (0 <= k < ny)%Z -> (0 <= l < nx)%Z -> g2 (chi2_of_res r') k l = g2 (chi2_of_res r) k l.
Proof.
  intros e im1 im2 err err' nt zm np ra huge ny nx H1 H2 Hy Hx Hh Hc.
  assert (Habs0 : forall z, Rabs z = 0 <-> z = 0).
  { intros z. split; [|intros ->; apply Rabs_R0]. intros G. destruct (Req_dec z 0) as [|N]; auto. apply Rabs_no_R0 in N. contradiction. }
  assert (O1 : err_ok err ny nx) by (destruct Hc as [[s [? [-> ->]]]|[er [er' [-> [-> [? [? ?]]]]]]]; simpl; auto).
  assert (O2 : err_ok err' ny nx).
  { destruct Hc as [[s [Hs [-> ->]]]|[er [er' [-> [-> [? [? ?]]]]]]]; simpl; auto. rewrite Habs0. exact Hs. }
  assert (Z12 : forall y x, (0 <= y < ny)%Z -> (0 <= x < nx)%Z -> err_zero err' y x = err_zero err y x).
  { intros y x HY HX. destruct Hc as [[s [Hs [-> ->]]]|[er [er' [-> [-> [? [? Ha]]]]]]]; simpl; auto. rewrite Ha by auto.
    destruct (Req_EM_T (Rabs (px er y x)) 0), (Req_EM_T (px er y x) 0); auto; exfalso; rewrite Habs0 in *; auto. }
  assert (S12 : forall y x, (0 <= y < ny)%Z -> (0 <= x < nx)%Z -> (sigma_of err' y x) = Rabs (sigma_of err y x)).
  { intros y x HY HX. assert (Zc := Z12 y x HY HX). destruct Hc as [[s [Hs [-> ->]]]|[er [er' [-> [-> [? [? Ha]]]]]]]; unfold sigma_of in *; auto.
    rewrite Zc. destruct (err_zero (ErrArr er) y x); [rewrite Rabs_R1; reflexivity|apply Ha; auto]. }
  destruct (chi2n_map_ok e im1 im2 err nt zm np ra false huge ny nx H1 H2 Hy Hx O1 Hh ltac:(discriminate)) as [c [t1 [t2 [t3 [E [S1 [S2 [_ V]]]]]]]].
  destruct (chi2n_map_ok e im1 im2 err' nt zm np ra false huge ny nx H1 H2 Hy Hx O2 Hh ltac:(discriminate)) as [c' [t1' [t2' [t3' [E' [S1' [S2' [_ V']]]]]]]].
  exists (if ra then Chi2All c t1 t2 t3 else Chi2Only c), (if ra then Chi2All c' t1' t2' t3' else Chi2Only c').
  split; [exact E|]. split; [exact E'|].
  replace (chi2_of_res (if ra then Chi2All c t1 t2 t3 else Chi2Only c)) with c by (destruct ra; reflexivity).
  replace (chi2_of_res (if ra then Chi2All c' t1' t2' t3' else Chi2Only c')) with c' by (destruct ra; reflexivity).
  intros k l Hk Hl. destruct (V k l Hk Hl) as [_ [_ V3]]. destruct (V' k l Hk Hl) as [_ [_ V3']]. rewrite V3, V3'.
  apply sum2_ext. intros i j Hi Hj. unfold used_image. rewrite !Z12 by (auto; apply Z.mod_pos_bound; auto). rewrite S12 by auto.
  assert (Hs := sigma_nz err ny nx i j O1).
  assert (Sq : forall a s, s <> 0 -> (a / Rabs s) ^ 2 = (a / s) ^ 2).
  { intros a s Hn. unfold Rabs. destruct (Rcase_abs s); [|reflexivity]. field. exact Hn. }
  apply Sq. exact Hs.
Qed.
Print Assumptions C37_negative_errors_act_as_positive.

Theorem C37_size_limit :
  forall e im1 im2 err nthreads zeromean use_np return_all reduced ny nx,
  shape im1 = [ny; nx] -> shape im2 = [ny; nx] -> err_ok err ny nx -> (e_gb e < 16 * (ny * nx))%Z ->
  chi2n_map e im1 im2 err BWrap nthreads zeromean use_np return_all reduced false = Raise ValueError.
Proof.
  intros e im1 im2 err nt zm np ra rd ny nx H1 H2 He Hg. unfold chi2n_map. rewrite H1, H2.
  destruct (list_eq_dec Z.eq_dec [ny; nx] [ny; nx]) as [_|]; [|congruence]. cbn [negb].
  destruct err as [|s|er]; simpl in He.
  - rewrite (correlate2d_huge _ _ _ _ nt np ny nx) by auto. reflexivity.
  - destruct (Req_EM_T s 0); [contradiction|]. rewrite (correlate2d_huge _ _ _ _ nt np ny nx) by auto. reflexivity.
  - rewrite He. destruct (list_eq_dec Z.eq_dec [ny; nx] [ny; nx]) as [_|]; [|congruence]. cbn [negb]. cbv zeta.
    rewrite (correlate2d_huge _ _ _ _ nt np ny nx) by auto. reflexivity.
Qed.
Print Assumptions C37_size_limit.

Theorem C37_error_shape_mismatch_raises :
  forall e im1 im2 er b nthreads zm np ra rd huge,
  shape im1 = shape im2 -> shape er <> shape im1 -> chi2n_map e im1 im2 (ErrArr er) b nthreads zm np ra rd huge = Raise IndexError.
Proof.
  intros. unfold chi2n_map. destruct (list_eq_dec Z.eq_dec (shape im1) (shape im2)); [|contradiction].
  destruct (list_eq_dec Z.eq_dec (shape er) (shape im1)); [contradiction|reflexivity].
Qed.
Print Assumptions C37_error_shape_mismatch_raises.

Example C37_nonvacuous : err_ok (ErrArr (mk2 2 2 (fun y x => Fin (IZR (y - x))))) 2 2 /\
  Rabs (px (mk2 2 2 (fun y x => Fin (IZR (y - x)))) 0 1) = px (mk2 2 2 (fun y x => Fin (IZR (Z.abs (y - x))))) 0 1.
Proof. split; [reflexivity|]. unfold px; simpl. rewrite Rabs_left; lra. Qed.
