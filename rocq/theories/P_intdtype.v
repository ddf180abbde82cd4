(** C89: chi2n_map on integer images *)
From Coq Require Import ZArith Lia List Reals Lra Bool.
From Coquelicot Require Import Complex.
From Verif Require Import Base NDim DFT Kernel Py M_fast_ffts M_shift M_scale M_zoom M_downsample M_convolve M_correlate Arg M_chi2 M_intdtype
  Spec L_shift L_convolve Sum2 Spec2 L_correlate L_chi2 P_chi2map.
Import ListNotations.
Open Scope R_scope.

Definition int16 := IDtype true 16.
(** z is a value of the dtype *)
Definition fits (dt : idtype) (z : Z) : Prop :=
  if signed dt then (- 2 ^ (bits dt - 1) <= z < 2 ^ (bits dt - 1))%Z else (0 <= z < 2 ^ bits dt)%Z.
Lemma wrapZ_fits dt z : (0 < bits dt)%Z -> fits dt z -> wrapZ dt z = z.
Proof.
  intros Hb. unfold fits, wrapZ, lowest. assert (P : (2 ^ bits dt = 2 * 2 ^ (bits dt - 1))%Z) by (rewrite <- Z.pow_succ_r by lia; f_equal; lia).
  destruct (signed dt); intros H; rewrite Z.mod_small; lia.
Qed.

(** the squares as the program sees them *)
Definition sqw (dt : idtype) (a : arr Z) (err : errarg) (y x : Z) : R := if err_zero err y x then IZR (int_square dt 0) else IZR (int_square dt (get a [y; x])).
Definition pxi (a : arr Z) (err : errarg) (y x : Z) : R := if err_zero err y x then 0 else IZR (get a [y; x]).

Lemma int_map_ok e dt1 dt2 im1 im2 err nt np ra huge ny nx :
  shape im1 = [ny; nx] -> shape im2 = [ny; nx] -> (0 < ny)%Z -> (0 < nx)%Z -> err_ok err ny nx -> size_ok e huge ny nx ->
  exists r, chi2n_map_int e dt1 dt2 im1 im2 err BWrap nt false np ra false huge = Ok r /\ shape (chi2_of_res r) = [ny; nx] /\
    forall k l, (0 <= k < ny)%Z -> (0 <= l < nx)%Z ->
      let sy := ((ny - 1) / 2 - k)%Z in let sx := ((nx - 1) / 2 - l)%Z in
      g2 (chi2_of_res r) k l = pixel_sum ny nx (fun i j =>
        (sqw dt2 im2 err i j - 2 * (pxi im2 err i j * pxi im1 err ((i - sy) mod ny) ((j - sx) mod nx)) + sqw dt1 im1 err ((i - sy) mod ny) ((j - sx) mod nx)) / sigma_of err i j ^ 2).
Proof.
  intros H1 H2 Hy Hx He Hh. unfold chi2n_map_int. rewrite H1, H2. destruct (list_eq_dec Z.eq_dec [ny; nx] [ny; nx]) as [_|C]; [|congruence]. cbn [negb].
  set (P1 := pxi im1 err). set (P2 := pxi im2 err). set (sg := sigma_of err). set (Q1 := sqw dt1 im1 err). set (Q2 := sqw dt2 im2 err).
  assert (Hcorr : forall f g, exists cc, correlate2d (e_fftw e) (e_gb e) (fin_arr [ny; nx] f) (fin_arr [ny; nx] g) BWrap nt np huge = Ok cc /\
     shape cc = [ny; nx] /\ forall k l, (0 <= k < ny)%Z -> (0 <= l < nx)%Z ->
       g2 cc k l = sum2 ny nx (fun i j => g [i; j] * f [(i - ((ny - 1) / 2 - k)) mod ny; (j - ((nx - 1) / 2 - l)) mod nx]%Z)).
  { intros f g. destruct (correlate2d_wrap (e_fftw e) (e_gb e) (fin_arr [ny; nx] f) (fin_arr [ny; nx] g) nt np huge ny nx) as [cc [A [B D]]]; auto.
    exists cc. split; [exact A|]. split; [exact B|]. intros k l Hk Hl. rewrite D by auto. apply sum2_ext. intros i j Hi Hj.
    unfold g2, fin_arr. cbn [get nan0]. rewrite !mod_shift_rw. reflexivity. }
  assert (Hsg : forall i j, sg i j <> 0) by (intros; apply (sigma_nz err ny nx); auto).
  assert (Hfin : forall (f1 f2 : list Z -> Z) (er : list Z -> R) t3,
    (forall y x, (0 <= y < ny)%Z -> (0 <= x < nx)%Z -> IZR (f1 [y; x]) = P1 y x /\ IZR (f2 [y; x]) = P2 y x /\ er [y; x] = sg y x /\ IZR (int_square dt2 (f2 [y; x])) = Q2 y x) ->
    (forall k l, (0 <= k < ny)%Z -> (0 <= l < nx)%Z -> match t3 with T3scalar r => r | T3array a => g2 a k l end =
       sum2 ny nx (fun i j => Q1 ((i - ((ny - 1) / 2 - k)) mod ny)%Z ((j - ((nx - 1) / 2 - l)) mod nx)%Z / (sg i j) ^ 2)) ->
    exists r,
      (let! cc := correlate2d (e_fftw e) (e_gb e) (fin_arr [ny; nx] (fun i => IZR (f1 i))) (fin_arr [ny; nx] (fun i => IZR (f2 i) / (er i) ^ 2)) BWrap nt np huge in
       let term2 := amap (fun x => (-2) * x) cc in
       let! chi2 := Ok (Arr [ny; nx] (fun i => sumNR [ny; nx] (fun i => IZR (int_square dt2 (f2 i)) / (er i) ^ 2) + get term2 i + match t3 with T3scalar r => r | T3array a => get a i end)) in
       Ok (if ra then Chi2All chi2 (sumNR [ny; nx] (fun i => IZR (int_square dt2 (f2 i)) / (er i) ^ 2)) term2 t3 else Chi2Only chi2)) = Ok r /\
      shape (chi2_of_res r) = [ny; nx] /\
      forall k l, (0 <= k < ny)%Z -> (0 <= l < nx)%Z ->
        let sy := ((ny - 1) / 2 - k)%Z in let sx := ((nx - 1) / 2 - l)%Z in
        g2 (chi2_of_res r) k l = pixel_sum ny nx (fun i j =>
          (Q2 i j - 2 * (P2 i j * P1 ((i - sy) mod ny)%Z ((j - sx) mod nx)%Z) + Q1 ((i - sy) mod ny)%Z ((j - sx) mod nx)%Z) / sg i j ^ 2)).
  { intros f1 f2 er t3 Hf Ht3. destruct (Hcorr (fun i => IZR (f1 i)) (fun i => IZR (f2 i) / (er i) ^ 2)) as [cc [E1 [E2 E3]]]. rewrite E1. cbn [bind].
    eexists. split; [reflexivity|]. split; [destruct ra; reflexivity|]. intros k l Hk Hl.
    replace (g2 (chi2_of_res _) k l) with (sumNR [ny; nx] (fun i => IZR (int_square dt2 (f2 i)) / (er i) ^ 2) + (-2) * g2 cc k l + match t3 with T3scalar r => r | T3array a => g2 a k l end) by (destruct ra; destruct t3; reflexivity).
    rewrite Ht3, E3, sum2_sumNR by auto. change (pixel_sum ny nx) with (sum2 ny nx). rewrite <- sum2_scal, <- !sum2_plus. apply sum2_ext. intros i j Hi Hj.
    destruct (Hf i j Hi Hj) as [_ [A [B D]]]. destruct (Hf ((i - ((ny - 1) / 2 - k)) mod ny)%Z ((j - ((nx - 1) / 2 - l)) mod nx)%Z ltac:(apply Z.mod_pos_bound; auto) ltac:(apply Z.mod_pos_bound; auto)) as [A' _].
    rewrite A', A, B, D. field. apply Hsg. }
  assert (Sc : forall s, s <> 0 -> sg = (fun _ _ => s) -> (forall y x, err_zero err y x = false) -> forall k l, (0 <= k < ny)%Z -> (0 <= l < nx)%Z ->
    sumNR [ny; nx] (fun i => IZR (int_square dt1 (get im1 i)) / s ^ 2) =
    sum2 ny nx (fun i j => Q1 ((i - ((ny - 1) / 2 - k)) mod ny)%Z ((j - ((nx - 1) / 2 - l)) mod nx)%Z / (sg i j) ^ 2)).
  { intros s Hs Es Ez k l Hk Hl. rewrite Es, sum2_sumNR.
    rewrite <- (sum2_shift ny nx (fun i j => IZR (int_square dt1 (get im1 [i; j])) / s ^ 2) (- ((ny - 1) / 2 - k)) (- ((nx - 1) / 2 - l)) Hy Hx).
    apply sum2_ext. intros i j Hi Hj. unfold Q1, sqw. rewrite Ez. reflexivity. }
  destruct err as [|s|er].
  - apply (Hfin (get im1) (get im2) (fun _ => 1) (T3scalar _)).
    + intros y x HY HX. repeat split.
    + intros k l Hk Hl. apply (Sc 1); [lra|reflexivity|reflexivity|exact Hk|exact Hl].
  - destruct (Req_EM_T s 0) as [Z|_]; [contradiction|]. apply (Hfin (get im1) (get im2) (fun _ => s) (T3scalar _)).
    + intros y x HY HX. repeat split.
    + intros k l Hk Hl. apply (Sc s); [exact He|reflexivity|reflexivity|exact Hk|exact Hl].
  - simpl in He. rewrite He. destruct (list_eq_dec Z.eq_dec [ny; nx] [ny; nx]) as [_|C]; [|congruence]. cbn [negb].
    pose (bad := fun i => if Req_EM_T (nan0 (get er i)) 0 then true else false).
    assert (Hb : forall y x, bad [y; x] = err_zero (ErrArr er) y x).
    { intros y x. unfold bad, err_zero, px. destruct (get er [y; x]); reflexivity. }
    destruct (Hcorr (fun i => IZR (int_square dt1 (if bad i then 0%Z else get im1 i))) (fun i => 1 / (if bad i then 1 else nan0 (get er i)) ^ 2)) as [t3 [E1 [E2 E3]]].
    unfold bad in E1. cbv beta zeta in E1 |- *. rewrite E1. cbn [bind]. apply (Hfin (fun i => if bad i then 0%Z else get im1 i) (fun i => if bad i then 0%Z else get im2 i) (fun i => if bad i then 1 else nan0 (get er i)) (T3array t3)).
    + intros y x HY HX. cbv beta. rewrite Hb. unfold P1, P2, sg, Q2, pxi, sqw, sigma_of. destruct (err_zero (ErrArr er) y x) eqn:Z; repeat split; try reflexivity; unfold px; destruct (get er [y; x]); reflexivity.
    + intros k l Hk Hl. rewrite E3 by auto. apply sum2_ext. intros i j Hi Hj. cbv beta. rewrite !Hb. unfold Q1, sqw, sg, sigma_of.
      assert (S := Hsg i j). unfold sg, sigma_of in S.
      replace (if err_zero (ErrArr er) i j then 1 else nan0 (get er [i; j])) with (if err_zero (ErrArr er) i j then 1 else px er i j) by (unfold px; destruct (get er [i; j]); reflexivity).
      destruct (err_zero (ErrArr er) ((i - ((ny - 1) / 2 - k)) mod ny) ((j - ((nx - 1) / 2 - l)) mod nx)); field; exact S.
Qed.

Lemma prep_float (a : arr Z) ny nx y x : prep false (as_float a) ny nx y x = IZR (get a [y; x]).
Proof. reflexivity. Qed.
Lemma float_map e im1 im2 err nt np ra huge ny nx :
  shape im1 = [ny; nx] -> shape im2 = [ny; nx] -> (0 < ny)%Z -> (0 < nx)%Z -> err_ok err ny nx -> size_ok e huge ny nx ->
  exists r, chi2n_map e (as_float im1) (as_float im2) err BWrap nt false np ra false huge = Ok r /\ shape (chi2_of_res r) = [ny; nx] /\
    forall k l, (0 <= k < ny)%Z -> (0 <= l < nx)%Z ->
      let sy := ((ny - 1) / 2 - k)%Z in let sx := ((nx - 1) / 2 - l)%Z in
      g2 (chi2_of_res r) k l = pixel_sum ny nx (fun i j =>
        (pxi im2 err i j ^ 2 - 2 * (pxi im2 err i j * pxi im1 err ((i - sy) mod ny) ((j - sx) mod nx)) + pxi im1 err ((i - sy) mod ny) ((j - sx) mod nx) ^ 2) / sigma_of err i j ^ 2).
Proof.
  intros H1 H2 Hy Hx He Hh.
  destruct (chi2n_map_ok e (as_float im1) (as_float im2) err nt false np ra false huge ny nx H1 H2 Hy Hx He Hh ltac:(discriminate)) as [c [t1 [t2 [t3 [E [S1 [_ [_ V]]]]]]]].
  exists (if ra then Chi2All c t1 t2 t3 else Chi2Only c). split; [exact E|].
  replace (chi2_of_res (if ra then Chi2All c t1 t2 t3 else Chi2Only c)) with c by (destruct ra; reflexivity).
  split; [exact S1|]. intros k l Hk Hl. destruct (V k l Hk Hl) as [_ [_ V3]]. cbv zeta. rewrite V3. unfold chi2_of. apply sum2_ext. intros i j Hi Hj.
  unfold used_image, pxi. rewrite !prep_float. field. apply (sigma_nz err ny nx). exact He.
Qed.

(** *** when no square overflows (and always with zeromean=True) integer images are treated like the same images in floating point *)
Theorem C89_exact_when_squares_fit :
  forall e dt1 dt2 im1 im2 err nthreads zeromean use_np return_all allow_huge ny nx,
  shape im1 = [ny; nx] -> shape im2 = [ny; nx] -> (0 < ny)%Z -> (0 < nx)%Z -> err_ok err ny nx -> size_ok e allow_huge ny nx ->
  (0 < bits dt1)%Z -> (0 < bits dt2)%Z ->
  zeromean = true \/ (fits dt1 0 /\ fits dt2 0 /\ forall y x, (0 <= y < ny)%Z -> (0 <= x < nx)%Z -> fits dt1 (get im1 [y; x] ^ 2) /\ fits dt2 (get im2 [y; x] ^ 2)) ->
  exists r r', chi2n_map_int e dt1 dt2 im1 im2 err BWrap nthreads zeromean use_np return_all false allow_huge = Ok r /\
    chi2n_map e (as_float im1) (as_float im2) err BWrap nthreads zeromean use_np return_all false allow_huge = Ok r' /\
    shape (chi2_of_res r) = [ny; nx] /\ forall k l, (0 <= k < ny)%Z -> (0 <= l < nx)%Z -> g2 (chi2_of_res r) k l = g2 (chi2_of_res r') k l.
Proof.
  intros e dt1 dt2 im1 im2 err nt zm np ra huge ny nx H1 H2 Hy Hx He Hh B1 B2 Hz. destruct zm.
  - destruct (chi2n_map_ok e (as_float im1) (as_float im2) err nt true np ra false huge ny nx H1 H2 Hy Hx He Hh ltac:(discriminate)) as [c [t1 [t2 [t3 [E [S1 _]]]]]].
    exists (if ra then Chi2All c t1 t2 t3 else Chi2Only c), (if ra then Chi2All c t1 t2 t3 else Chi2Only c). split; [exact E|]. split; [exact E|]. split; [destruct ra; exact S1|reflexivity].
  - destruct Hz as [?|[F1 [F2 Hf]]]; [discriminate|].
    destruct (int_map_ok e dt1 dt2 im1 im2 err nt np ra huge ny nx H1 H2 Hy Hx He Hh) as [r [E [S V]]].
    destruct (float_map e im1 im2 err nt np ra huge ny nx H1 H2 Hy Hx He Hh) as [r' [E' [S' V']]].
    exists r, r'. split; [exact E|]. split; [exact E'|]. split; [exact S|]. intros k l Hk Hl. specialize (V k l Hk Hl). specialize (V' k l Hk Hl). cbv zeta in V, V'. rewrite V, V'.
    apply sum2_ext. intros i j Hi Hj.
    assert (Sq : forall dt a, (0 < bits dt)%Z -> fits dt 0 -> (forall y x, (0 <= y < ny)%Z -> (0 <= x < nx)%Z -> fits dt (get a [y; x] ^ 2)) ->
       forall y x, (0 <= y < ny)%Z -> (0 <= x < nx)%Z -> sqw dt a err y x = pxi a err y x ^ 2).
    { intros dt a Hb F0 F y x HY HX. unfold sqw, pxi, int_square. destruct (err_zero err y x).
      - rewrite wrapZ_fits by (auto; exact F0). simpl. ring.
      - specialize (F y x HY HX). rewrite Z.pow_2_r in F. rewrite wrapZ_fits by auto. rewrite mult_IZR. ring. }
    rewrite (Sq dt2 im2 B2 F2) by (auto; intros; apply Hf; auto). rewrite (Sq dt1 im1 B1 F1) by (try (intros; apply Hf; auto); apply Z.mod_pos_bound; auto). reflexivity.
Qed.
Print Assumptions C89_exact_when_squares_fit.

(** *** with a scalar error an overflow adds one constant to the whole map: the position of its minimum and all differences are right, its values are not *)
Theorem C89_overflow_adds_a_constant :
  forall e dt1 dt2 im1 im2 err nthreads use_np return_all allow_huge ny nx,
  shape im1 = [ny; nx] -> shape im2 = [ny; nx] -> (0 < ny)%Z -> (0 < nx)%Z -> size_ok e allow_huge ny nx ->
  (err = ErrNone \/ exists s, err = ErrScalar s /\ s <> 0) ->
  exists r r' c, chi2n_map_int e dt1 dt2 im1 im2 err BWrap nthreads false use_np return_all false allow_huge = Ok r /\
    chi2n_map e (as_float im1) (as_float im2) err BWrap nthreads false use_np return_all false allow_huge = Ok r' /\
    forall k l, (0 <= k < ny)%Z -> (0 <= l < nx)%Z -> g2 (chi2_of_res r) k l = g2 (chi2_of_res r') k l + c.
Proof.
  intros e dt1 dt2 im1 im2 err nt np ra huge ny nx H1 H2 Hy Hx Hh Hs.
  assert (He : err_ok err ny nx) by (destruct Hs as [->|[s [-> Hs]]]; simpl; auto).
  assert (Hc : exists s, s <> 0 /\ (forall i j, sigma_of err i j = s) /\ forall i j, err_zero err i j = false).
  { destruct Hs as [->|[s [-> Hs]]]; [exists 1|exists s]; repeat split; auto; lra. }
  destruct Hc as [s [Hs0 [Hsg Hez]]].
  destruct (int_map_ok e dt1 dt2 im1 im2 err nt np ra huge ny nx H1 H2 Hy Hx He Hh) as [r [E [S V]]].
  destruct (float_map e im1 im2 err nt np ra huge ny nx H1 H2 Hy Hx He Hh) as [r' [E' [S' V']]].
  set (d1 := fun i j => (sqw dt1 im1 err i j - pxi im1 err i j ^ 2) / s ^ 2). set (d2 := fun i j => (sqw dt2 im2 err i j - pxi im2 err i j ^ 2) / s ^ 2).
  exists r, r', (sum2 ny nx d2 + sum2 ny nx d1). split; [exact E|]. split; [exact E'|]. intros k l Hk Hl. specialize (V k l Hk Hl). specialize (V' k l Hk Hl). cbv zeta in V, V'. rewrite V, V'.
  change (pixel_sum ny nx) with (sum2 ny nx). rewrite <- (sum2_shift ny nx d1 (- ((ny - 1) / 2 - k)) (- ((nx - 1) / 2 - l)) Hy Hx).
  rewrite <- !sum2_plus. apply sum2_ext. intros i j Hi Hj. rewrite !Hsg. unfold d1, d2. rewrite !Z.add_opp_r. field. exact Hs0.
Qed.
Print Assumptions C89_overflow_adds_a_constant.

Lemma sumR_one f : sumR 1 f = f 0%Z.
Proof. change 1%Z with (0 + 1)%Z. rewrite sumR_S, sumR_0 by lia. ring. Qed.

(** int16 images: a perfect match gets a negative chi-squared *)
Theorem C89_negative_chi2_refuted :
  forall e nthreads use_np return_all, let im := mk2 1 1 (fun _ _ => 182%Z) in
  exists r, chi2n_map_int e int16 int16 im im ErrNone BWrap nthreads false use_np return_all false true = Ok r /\ g2 (chi2_of_res r) 0 0 = - 131072.
Proof.
  intros e nt np ra im. destruct (int_map_ok e int16 int16 im im ErrNone nt np ra true 1 1 eq_refl eq_refl ltac:(lia) ltac:(lia) I (or_introl eq_refl)) as [r [E [_ V]]].
  exists r. split; [exact E|]. rewrite V by lia. cbv zeta. unfold pixel_sum. rewrite !sumR_one. cbn [sigma_of]. unfold sqw, pxi. cbn [err_zero].
  change (get im [_; _]) with 182%Z. change (int_square int16 182) with (-32412)%Z. lra.
Qed.
Print Assumptions C89_negative_chi2_refuted.

(** with an error map even the position of the minimum is wrong: im2 is im1 rolled by one column, which entry 1 of the map stands for (its true
    chi-squared is 0), but entry 0 is smaller *)
Theorem C89_wrong_minimum_refuted :
  forall e nthreads use_np return_all,
  let im1 := mk2 1 2 (fun _ x => if (x =? 0)%Z then 182%Z else 0%Z) in let im2 := mk2 1 2 (fun _ x => if (x =? 1)%Z then 182%Z else 0%Z) in
  let er := mk2 1 2 (fun _ x => if (x =? 0)%Z then Fin 1 else Fin 2) in
  is_roll (as_float im1) (as_float im2) 1 2 0 1 /\
  exists r r', chi2n_map_int e int16 int16 im1 im2 (ErrArr er) BWrap nthreads false use_np return_all false true = Ok r /\
    chi2n_map e (as_float im1) (as_float im2) (ErrArr er) BWrap nthreads false use_np return_all false true = Ok r' /\
    g2 (chi2_of_res r') 0 1 = 0 /\ 0 < g2 (chi2_of_res r') 0 0 /\ g2 (chi2_of_res r) 0 0 < g2 (chi2_of_res r) 0 1.
Proof.
  intros e nt np ra im1 im2 er. split.
  - repeat split. intros y x Hy Hx. assert (y = 0%Z) by lia. assert (x = 0 \/ x = 1)%Z as [-> | ->] by lia; subst y; reflexivity.
  - destruct (int_map_ok e int16 int16 im1 im2 (ErrArr er) nt np ra true 1 2 eq_refl eq_refl ltac:(lia) ltac:(lia) eq_refl (or_introl eq_refl)) as [r [E [_ V]]].
    destruct (float_map e im1 im2 (ErrArr er) nt np ra true 1 2 eq_refl eq_refl ltac:(lia) ltac:(lia) eq_refl (or_introl eq_refl)) as [r' [E' [_ V']]].
    exists r, r'. split; [exact E|]. split; [exact E'|].
    assert (Z0 : forall y, err_zero (ErrArr er) y 0 = false) by (intros y; unfold err_zero; change (px er y 0) with 1; destruct (Req_EM_T 1 0); [lra|reflexivity]).
    assert (Z1 : forall y, err_zero (ErrArr er) y 1 = false) by (intros y; unfold err_zero; change (px er y 1) with 2; destruct (Req_EM_T 2 0); [lra|reflexivity]).
    assert (S0 : forall y, sigma_of (ErrArr er) y 0 = 1) by (intros y; unfold sigma_of; rewrite Z0; reflexivity).
    assert (S1 : forall y, sigma_of (ErrArr er) y 1 = 2) by (intros y; unfold sigma_of; rewrite Z1; reflexivity).
    assert (T : forall f, pixel_sum 1 2 f = f 0%Z 0%Z + f 0%Z 1%Z) by (intros f; unfold pixel_sum; rewrite sumR_one; change 2%Z with (0 + 1 + 1)%Z; rewrite !sumR_S, sumR_0 by lia; cbn; ring).
    rewrite !V, !V' by lia. cbv zeta. rewrite !T. change ((1 - 1) / 2 - 0)%Z with 0%Z. change ((2 - 1) / 2 - 0)%Z with 0%Z. change ((2 - 1) / 2 - 1)%Z with (-1)%Z.
    change ((0 - 0) mod 1)%Z with 0%Z. change ((0 - 0) mod 2)%Z with 0%Z. change ((1 - 0) mod 2)%Z with 1%Z. change ((0 - -1) mod 2)%Z with 1%Z. change ((1 - -1) mod 2)%Z with 0%Z.
    unfold sqw, pxi. rewrite !Z0, !Z1, !S0, !S1.
    change (get im1 [0; 0]%Z) with 182%Z. change (get im1 [0; 1]%Z) with 0%Z. change (get im2 [0; 0]%Z) with 0%Z. change (get im2 [0; 1]%Z) with 182%Z.
    change (int_square int16 182) with (-32412)%Z. change (int_square int16 0) with 0%Z. repeat split; lra.
Qed.
Print Assumptions C89_wrong_minimum_refuted.

Example C89_nonvacuous : let im := mk2 3 4 (fun y x => (2 * y + x)%Z) in
  forall y x, (0 <= y < 3)%Z -> (0 <= x < 4)%Z -> fits int16 (get im [y; x] ^ 2) /\ fits (IDtype false 8) (get im [y; x] ^ 2).
Proof.
  intros im y x Hy Hx. assert (H : (0 <= get im [y; x] ^ 2 <= 49)%Z) by (change (get im [y; x]) with (2 * y + x)%Z; rewrite Z.pow_2_r; nia).
  revert H. generalize (get im [y; x] ^ 2)%Z. intros z H. unfold fits. cbn [signed bits int16]. change (2 ^ (16 - 1))%Z with 32768%Z. change (2 ^ 8)%Z with 256%Z. lia.
Qed.

(** images of different shapes: ValueError, as for float images *)
Theorem C89_different_shapes_raise :
  forall e dt1 dt2 im1 im2 err b nthreads zeromean use_np return_all reduced allow_huge,
  shape im1 <> shape im2 ->
  chi2n_map_int e dt1 dt2 im1 im2 err b nthreads zeromean use_np return_all reduced allow_huge = Raise ValueError.
Proof.
  intros e dt1 dt2 im1 im2 err b nt zm np ra rd ah H. unfold chi2n_map_int. destruct zm.
  - unfold chi2n_map. change (shape (as_float im1)) with (shape im1). change (shape (as_float im2)) with (shape im2). destruct (list_eq_dec Z.eq_dec (shape im1) (shape im2)); [contradiction|reflexivity].
  - destruct (list_eq_dec Z.eq_dec (shape im1) (shape im2)); [contradiction|reflexivity].
Qed.
Print Assumptions C89_different_shapes_raise.
