(** C70: all methods agree in sign and axis order.  Also non-vacuity for C77 and C78 *)
From Coq Require Import ZArith Lia List Reals Lra Bool.
From Coquelicot Require Import Complex.
From Verif Require Import Base NDim DFT Kernel Num Py M_fast_ffts M_shift M_convolve M_correlate M_chi2 M_register M_xcorr M_heap M_leastsq
  Spec Spec2 Spec3 Spec4 Spec8 L_shift P_shift Sum2 L_chi2 L_chi2shift L_fshift L_register L_xcorr P_xcorr P_xcorr2 P_chi2shift P_register P_register2 L_heap P_leastsq.
Import ListNotations.
Open Scope R_scope.

Lemma phase_no_real ny nx f : (2 <= ny)%Z -> (2 <= nx)%Z -> no_phase_symmetry ny nx f -> no_real_symmetry ny nx f.
Proof.
  intros Hy Hx H ty tx E. assert (F := fixed_complex ny nx f ty tx ltac:(lia) ltac:(lia) E).
  destruct (H ty tx (RtoC 1)) as [A B].
  - rewrite Cmod_R. apply Rabs_R1.
  - intros y x HY HX. rewrite Cmult_1_l. assert (G := F [y; x] ltac:(repeat split; lia)).
    rewrite cshift_shifted in G by lia. exact G.
  - destruct A as [A|[k A]]; [lia|]. destruct B as [B|[l B]]; [lia|]. eauto.
Qed.

Lemma centred_small n d : (0 < n)%Z -> (- (n / 2) <= d <= (n - 1) / 2)%Z -> centred n d = d.
Proof. intros Hn H. unfold centred. rewrite Z.mod_small; [lia|]. Z.to_euclidean_division_equations; lia. Qed.

(** shifting image 2 back by a whole-pixel roll restores image 1 *)
Lemma shift_back env im1 im2 ny nx dy dx : is_roll im1 im2 ny nx dy dx -> (0 < ny)%Z -> (0 < nx)%Z ->
  exists out, shift2d env (of_num im2) (- IZR dx) (- IZR dy) 0 1 false false true = Ok (RealArr out) /\ shape out = [ny; nx] /\
    forall i j, (0 <= i < ny)%Z -> (0 <= j < nx)%Z -> get out [i; j] = px im1 i j.
Proof.
  intros [H1 [H2 HR]] Hy Hx.
  destruct (C01_integer_shift_is_roll env im2 [- dy; - dx]%Z 0 1%Z false false) as [out [Eo [So Go]]]; [rewrite H2; repeat constructor; auto|unfold ndim; rewrite H2; reflexivity|].
  assert (C7 := C07_shift2d_is_shiftnd env (of_num im2) ny nx (- IZR dx) (- IZR dy) 0 1%Z false false true H2).
  cbn [map] in Eo. rewrite !opp_IZR in Eo. rewrite Eo in C7. unfold same_result in C7.
  destruct (shift2d _ _ _ _ _ _ _ _ _) as [sh|] eqn:ES; [|contradiction]. destruct sh as [sh|]; [|contradiction]. destruct C7 as [C7s C7g].
  exists sh. split; [reflexivity|]. split; [rewrite C7s, So; exact H2|].
  intros i j Hi Hj. assert (Hin : inb [ny; nx] [i; j]) by (repeat split; lia). rewrite C7g by (rewrite C7s, So, H2; exact Hin). rewrite Go by (rewrite H2; exact Hin).
  rewrite cos_0, Rmult_1_l. unfold roll. cbn [get]. unfold px. rewrite H2. unfold roll_src. cbn.
  rewrite HR by (apply Z.mod_pos_bound; lia). unfold nan0.
  replace (((i - - dy) mod ny - dy) mod ny)%Z with i by (rewrite Zminus_mod_idemp_l; replace (i - - dy - dy)%Z with i by lia; rewrite Z.mod_small; lia).
  replace (((j - - dx) mod nx - dx) mod nx)%Z with j by (rewrite Zminus_mod_idemp_l; replace (j - - dx - dx)%Z with j by lia; rewrite Z.mod_small; lia).
  reflexivity.
Qed.

(** im2 = im1 rolled by (dy, dx), in the centred range: chi2_shift (with a grid that contains whole pixels) and register_images
    both say x = dx, y = dy, and shift2d(im2, -x, -y) is im1 *)
Theorem C70_chi2_and_register_agree :
  forall e im1 im2 zeromean nthreads use_np allow_huge ny nx dy dx u s1 s2 t usfac,
  is_roll im1 im2 ny nx dy dx -> (2 <= ny)%Z -> (2 <= nx)%Z ->
  (- (ny / 2) <= dy <= (ny - 1) / 2)%Z -> (- (nx / 2) <= dx <= (nx - 1) / 2)%Z ->
  no_phase_symmetry ny nx (prep zeromean im1 ny nx) ->
  size_ok e allow_huge ny nx -> one_sigma e t ->
  explicit_grid (UInt u) ny nx (IZR u) s1 s2 -> hits_pixel ny u s1 -> hits_pixel nx u s2 ->
  usfac <> 0 -> (usfac <= 2 \/ exists k : Z, usfac = IZR k) ->
  (exists rest, chi2_shift e im1 im2 ErrNone (UInt u) BWrap nthreads use_np zeromean 2 false true false 512 (11 / 10) allow_huge = Ok (RNum (IZR dx) :: RNum (IZR dy) :: rest)) /\
  register_images (e_fftw e) im1 im2 usfac false false zeromean None nthreads use_np = Ok [RgNum (IZR dx); RgNum (IZR dy)] /\
  (exists out, shift2d (e_fftw e) (of_num im2) (- IZR dx) (- IZR dy) 0 1 false false true = Ok (RealArr out) /\ shape out = [ny; nx] /\
    forall i j, (0 <= i < ny)%Z -> (0 <= j < nx)%Z -> get out [i; j] = px im1 i j).
Proof.
  intros e im1 im2 zm nt np huge ny nx dy dx u s1 s2 t us HR Hy Hx Dy Dx Hp Hh Ht Hg P1 P2 U0 U1.
  split; [|split].
  - destruct (C38_roll_reproduced e im1 im2 ErrNone 1 u nt np zm 2 true false 512 (11/10) huge ny nx dy dx s1 s2 t HR ltac:(lia) ltac:(lia) Hh (or_introl (conj eq_refl eq_refl)) Hg P1 P2 Ht) as [x [y [rest [E [_ Eq]]]]].
    destruct (Eq (phase_no_real _ _ _ Hy Hx Hp)) as [Ey Ex].
    replace ((ny - 1) / 2 - ((ny - 1) / 2 - dy) mod ny)%Z with dy in Ey by (rewrite Z.mod_small; [lia|]; Z.to_euclidean_division_equations; lia).
    replace ((nx - 1) / 2 - ((nx - 1) / 2 - dx) mod nx)%Z with dx in Ex by (rewrite Z.mod_small; [lia|]; Z.to_euclidean_division_equations; lia).
    exists rest. rewrite E, Ex, Ey. reflexivity.
  - rewrite (C52_roll_recovered_every_factor (e_fftw e) im1 im2 us false zm None nt np ny nx dy dx HR); auto; try lia; try exact I.
    rewrite !centred_small by (auto; lia). reflexivity.
  - apply shift_back; auto; lia.
Qed.
Print Assumptions C70_chi2_and_register_agree.

(** for even sizes and shifts that are not at the edge of the range, cross_correlation_shifts and the objective of
    chi2_shift_leastsq say the same *)
Theorem C70_all_methods_agree_even :
  forall e agpy im1 im2 zeromean nthreads use_np allow_huge ny nx dy dx u s1 s2 t usfac,
  is_roll im1 im2 ny nx dy dx -> Z.even ny = true -> Z.even nx = true -> interior_shift ny dy -> interior_shift nx dx ->
  no_phase_symmetry ny nx (prep zeromean im1 ny nx) ->
  size_ok e allow_huge ny nx -> one_sigma e t ->
  explicit_grid (UInt u) ny nx (IZR u) s1 s2 -> hits_pixel ny u s1 -> hits_pixel nx u s2 ->
  usfac <> 0 -> (usfac <= 2 \/ exists k : Z, usfac = IZR k) ->
  (exists rest, chi2_shift e im1 im2 ErrNone (UInt u) BWrap nthreads use_np zeromean 2 false true false 512 (11 / 10) allow_huge = Ok (RNum (IZR dx) :: RNum (IZR dy) :: rest)) /\
  register_images (e_fftw e) im1 im2 usfac false false zeromean None nthreads use_np = Ok [RgNum (IZR dx); RgNum (IZR dy)] /\
  cross_correlation_shifts e agpy im1 im2 None None None false false zeromean BWrap nthreads use_np allow_huge = Ok [XF (IZR dx); XF (IZR dy)] /\
  (forall i j, (0 <= i < ny)%Z -> (0 <= j < nx)%Z ->
     centred_image im1 ny nx i j = fshift ny nx (centred_image im2 ny nx) (- IZR dy) (- IZR dx) i j) /\
  (exists out, shift2d (e_fftw e) (of_num im2) (- IZR dx) (- IZR dy) 0 1 false false true = Ok (RealArr out) /\ shape out = [ny; nx] /\
    forall i j, (0 <= i < ny)%Z -> (0 <= j < nx)%Z -> get out [i; j] = px im1 i j).
Proof.
  intros e agpy im1 im2 zm nt np huge ny nx dy dx u s1 s2 t us HR Ey Ex Iy Ix Hp Hh Ht Hg P1 P2 U0 U1.
  assert (By := interior_bounds ny dy Iy). assert (Bx := interior_bounds nx dx Ix). unfold interior_shift in Iy, Ix.
  destruct (C70_chi2_and_register_agree e im1 im2 zm nt np huge ny nx dy dx u s1 s2 t us) as [A [B D]]; auto; try lia.
  split; [exact A|]. split; [exact B|]. split.
  { apply (C45_roll_recovered_even e agpy im1 im2 None None zm nt np huge ny nx dy dx); auto; try exact I. apply (phase_no_symmetry ny nx); auto; lia. }
  split; [|exact D]. intros i j Hi Hj. destruct (C78_roll_is_the_perfect_fit im1 im2 ny nx dy dx HR ltac:(lia) ltac:(lia)) as [P _].
  specialize (P i j Hi Hj). cbv beta in P. destruct (Req_EM_T (centred_image im1 ny nx i j - fshift ny nx (centred_image im2 ny nx) (- IZR dy) (- IZR dx) i j) 0) as [Z|Z]; [lra|].
  apply Rabs_no_R0 in Z. contradiction.
Qed.
Print Assumptions C70_all_methods_agree_even.

Example C70_nonvacuous : is_roll (dot 6 6 1 3) (dot 6 6 2 2) 6 6 1 (-1) /\ interior_shift 6 1 /\ interior_shift 6 (-1) /\
  no_phase_symmetry 6 6 (prep false (dot 6 6 1 3) 6 6) /\ explicit_grid (UInt 5) 6 6 5 6 6 /\ hits_pixel 6 5 6.
Proof.
  split; [|split; [|split; [|split; [|split]]]].
  - split; [reflexivity|]. split; [reflexivity|]. intros y x Hy Hx. cbn [get dot mk2]. do 2 f_equal.
    assert (A : ((y =? 2) = ((y - 1) mod 6 =? 1))%Z) by (destruct (Z.eqb_spec y 2) as [->|N]; [reflexivity|]; symmetry; apply Z.eqb_neq; intros E; apply N; Z.to_euclidean_division_equations; lia).
    assert (B : ((x =? 2) = ((x - -1) mod 6 =? 3))%Z) by (destruct (Z.eqb_spec x 2) as [->|N]; [reflexivity|]; symmetry; apply Z.eqb_neq; intros E; apply N; Z.to_euclidean_division_equations; lia).
    rewrite A, B. reflexivity.
  - cbv. split; reflexivity.
  - cbv. split; reflexivity.
  - apply dot_no_phase_symmetry; lia.
  - cbn. repeat split; lia.
  - cbv. split; reflexivity.
Qed.

Lemma fshift_const ny nx f c ty tx i j : (0 < ny)%Z -> (0 < nx)%Z -> fshift ny nx (fun y x => f y x - c) ty tx i j = fshift ny nx f ty tx i j - c.
Proof.
  intros Hy Hx. unfold fshift. rewrite (tiR_ext _ _ (fun y => img2 f y + (fun _ => - c) y)).
  - rewrite tiR_plus, tiR_const by (auto using pos2). lra.
  - intros y Hin. apply inb2' in Hin. destruct Hin as [a [b [-> _]]]. cbn [img2]. lra.
Qed.
(** subtracting the mean does not create symmetries *)
Theorem C78_uniqueness_without_mean :
  forall im ny nx, (0 < ny)%Z -> (0 < nx)%Z -> (no_real_symmetry ny nx (centred_image im ny nx) <-> no_real_symmetry ny nx (px im)).
Proof.
  intros im ny nx Hy Hx. unfold no_real_symmetry.
  split; intros H ty tx E; apply H; intros y x HY HX; specialize (E y x HY HX); unfold centred_image in *;
    rewrite (fshift_const ny nx (px im) (pixel_sum ny nx (px im) / (IZR ny * IZR nx))) in * by auto; lra.
Qed.
Print Assumptions C78_uniqueness_without_mean.

(** a minimiser that evaluates the guess and the roll *)
Definition two_tries (gx gy : R) (mo : option Z) : minimizer := Try gx gy (fun _ => Try (-1) 1 (fun _ => Stop (-1) 1 None None)).
Definition demo_mem : mem := [BReal (dot 6 6 1 3); BReal (dot 6 6 2 2); BReal (dot 6 6 0 0)].
Example C77_nonvacuous : forall mc,
  fst (chi2_shift_leastsq_mem false true true mc two_tries 0%nat 1%nat (ELArr 2%nat) None true 0 0 false true demo_mem) = Raise TypeError /\
  fst (chi2_shift_leastsq_mem false true true mc two_tries 0%nat 1%nat ELNone (Some 2%Z) true 0 0 true false demo_mem) = Raise TypeError.
Proof.
  intros mc. split.
  - apply (C77_defaults_raise demo_mem 0%nat 1%nat _ (dot 6 6 1 3) (dot 6 6 2 2) 6 6 false true mc two_tries None true 0 0 false true 0 0 (fun _ => Try (-1) 1 (fun _ => Stop (-1) 1 None None)));
      try reflexivity; try lia; try discriminate; auto. exists (dot 6 6 0 0). split; reflexivity.
  - apply (C77_defaults_raise demo_mem 0%nat 1%nat _ (dot 6 6 1 3) (dot 6 6 2 2) 6 6 false true mc two_tries (Some 2%Z) true 0 0 true false 0 0 (fun _ => Try (-1) 1 (fun _ => Stop (-1) 1 None None)));
      try reflexivity; try lia; try discriminate; auto. left; discriminate.
Qed.
Example C78_nonvacuous : no_real_symmetry 6 6 (centred_image (dot 6 6 1 3) 6 6) /\
  forall mc, fst (chi2_shift_leastsq_mem false true true mc two_tries 0%nat 1%nat ELNone None true 0 0 true false demo_mem) = Ok [Some (-1); Some 1; None; None].
Proof.
  split.
  - apply C78_uniqueness_without_mean; try lia. intros ty tx E. apply (phase_no_real 6 6 (prep false (dot 6 6 1 3) 6 6)); try lia.
    + apply dot_no_phase_symmetry; lia.
    + exact E.
  - intros mc. destruct (C78_objective demo_mem 0%nat 1%nat ELNone (dot 6 6 1 3) (dot 6 6 2 2) 6 6 false true mc two_tries true 0 0) as [obj [_ E]]; try reflexivity; try lia; auto.
Qed.
(** an image with a NaN and an error map *)
Example C69_leastsq_nonvacuous : forall mc, exists e',
  let m' := snd (chi2_shift_leastsq_mem false true true mc two_tries 0%nat 0%nat (ELArr 1%nat) None true 0 0 true false
                   [BReal (mk2 2 2 (fun y x => if (y =? 0)%Z then NaN else Fin 1)); BReal (mk2 2 2 (fun _ _ => Fin 5))]) in
  holds m' 1%nat (BExt e') /\ get e' [0; 1]%Z = XInf /\ get e' [1; 0]%Z = XF 5.
Proof.
  intros mc.
  destruct (C69_leastsq_overwrites_error_map_refuted [BReal (mk2 2 2 (fun y x => if (y =? 0)%Z then NaN else Fin 1)); BReal (mk2 2 2 (fun _ _ => Fin 5))]
    0%nat 0%nat 1%nat (mk2 2 2 (fun y x => if (y =? 0)%Z then NaN else Fin 1)) (mk2 2 2 (fun y x => if (y =? 0)%Z then NaN else Fin 1)) (mk2 2 2 (fun _ _ => Fin 5))
    false true true mc two_tries None true 0 0 true false) as [e' [H [_ [A [B _]]]]]; try reflexivity.
  - exists [0; 1]%Z. split; [repeat split; lia|reflexivity].
  - exists e'. split; [exact H|]. split; [apply A; reflexivity|apply B; [discriminate|reflexivity]].
Qed.
