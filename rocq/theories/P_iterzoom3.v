(** C57 (success), C74 (even zoomshape), C44 (chi2_shift_iterzoom) *)
From Coq Require Import ZArith Lia List Reals Lra Bool.
From Coquelicot Require Import Complex.
From Verif Require Import Base NDim DFT Kernel Num Py M_fast_ffts M_shift M_scale M_zoom M_downsample L_downsample M_convolve M_correlate Arg M_chi2 M_iterzoom Spec Spec2 Spec5 L_shift L_scale L_zoom P_zoom L_iterzoom L_iterzoom2 L_iterzoom3 P_iterzoom P_iterzoom2.
Import ListNotations.
Open Scope R_scope.

Lemma gap_varied mm v d : is_gap mm v d -> varied v.
Proof.
  intros [a [q [Ha [_ [Hq [D0 [Ed _]]]]]]]. exists q, a. split; [auto|]. split; [auto|]. intros Q. rewrite Q, Rminus_diag_eq, Rabs_R0 in Ed by reflexivity. lra.
Qed.

(** an image whose smallest non-zero difference exceeds mindiff is zoomed successfully *)
Theorem C57_iterative_zoom_succeeds :
  forall env (image : arr num) ny nx mindiff my mx step mm d,
  shape image = [ny; nx] -> (0 < ny)%Z -> (0 < nx)%Z -> (forall i, inb [ny; nx] i -> isnan (get image i) = false) ->
  1 < step -> 0 < mindiff -> (0 < my)%Z -> (0 < mx)%Z ->
  is_gap mm (pixel_view ny nx (fun y x => nan0 (get image [y; x]))) d -> mindiff < d ->
  exists (n : nat) cy cx, forall fuel, (n < fuel)%nat -> iterative_zoom env fuel image mindiff [my; mx] false step mm true = Some (Ok (ZResult [cy; cx])).
Proof.
  intros env image ny nx md my mx step mm d Hs Hy Hx Hn Hst Hmd Hmy Hmx Hg Hd.
  destruct (pow_unbounded step (PI * mass2 image ny nx * (IZR (my - 1) + IZR (mx - 1))) md Hst Hmd) as [n [Hn1 HK]].
  assert (E := fun fuel => iterative_zoom_loop env fuel image ny nx md [my; mx] false step mm true Hs Hy Hx).
  destruct (has_nan [ny; nx] image) eqn:EN.
  { apply existsN_spec in EN. destruct EN as [i [Hi Ei]]. rewrite Hn in Ei by auto. discriminate. }
  change (fun y x => nan0 (get image [y; x])) with (fun y x => finite image [y; x]) in *. set (v := pixel_view ny nx (fun y x => finite image [y; x])) in *.
  assert (Nv : v <> []) by (apply map_nonempty, pixels_nonempty; lia).
  destruct (zloop_terminates mm md step [IZR (ny - 1) / 2; IZR (nx - 1) / 2] (zoom2 env image ny nx [my; mx])
    (PI * mass2 image ny nx * (IZR (my - 1) + IZR (mx - 1))) good2 (fun c zf => zoom2_spread env image ny nx my mx Hy Hx Hmy Hmx c zf) Hst n
    v 1 None [0; 0] Hn1 Nv) as [s Hz].
  - intros p Hp. apply (pixel_view_ok image ny nx Hy Hx p Hp).
  - lra.
  - apply (gap_varied mm v d Hg).
  - rewrite Rmult_1_l. exact HK.
  - assert (T := E (S n)). rewrite Hz in T. cbn [pack] in T.
    assert (R := zloop_trace mm md step [IZR (ny - 1) / 2; IZR (nx - 1) / 2] (zoom2 env image ny nx [my; mx]) good2 Hst
      ltac:(intros c zf v' G P Z'; destruct (zoom2_samples env image ny nx my mx Hy Hx Hmy Hmx c zf v' G P Z') as [A B]; split; [exact A|intros p Hp; apply (B p Hp)])
      (S n) v 1 None [0; 0] s Nv ltac:(intros p Hp; apply (pixel_view_ok image ny nx Hy Hx p Hp)) ltac:(lra) Hz).
    destruct s as [[[v' zf'] cen'] off']. destruct R as [[_ [d' [G' L']]]|[k [p [w [K1 [W0 [Wk [Ez [Hi [St [Ec Eo]]]]]]]]]]].
    { rewrite (gap_unique _ _ _ _ G' Hg) in L'. lra. }
    rewrite Ec in T. cbn [zresult bind] in T.
    assert (Gd : good2 (fst (p (k - 1)%nat))).
    { assert (Gk : forall i, (i < k)%nat -> good2 (fst (p i))); [|apply Gk; lia]. induction i as [|i IHi]; intros Hk.
      - destruct (Hi O Hk) as [_ [F _]]. rewrite W0 in F. apply (pixel_view_ok image ny nx Hy Hx). apply (first_best_In _ _ _ F).
      - destruct (Hi (S i) Hk) as [_ [F _]]. destruct (Hi i ltac:(lia)) as [_ [_ Zm]].
        apply (zoom2_samples env image ny nx my mx Hy Hx Hmy Hmx) in Zm; [|apply IHi; lia|rewrite Rmult_1_l; apply pow_lt; lra].
        apply Zm. apply (first_best_In _ _ _ F). }
    destruct Gd as [cy [cx Ecc]]. exists n, cy, cx. intros fuel Hf. rewrite E. rewrite (pack_mono _ _ _ _ _ _ _ _ _ _ _ n _ Hz) by lia.
    cbn [pack]. rewrite Ec. cbn [zresult bind]. rewrite Ecc. reflexivity.
Qed.
Print Assumptions C57_iterative_zoom_succeeds.
(** a case: the 5x5 dark spot with mindiff 1/2; it also meets the hypotheses of C58 and C74 *)
Example C58_nonvacuous : exists fuel cy cx,
  iterative_zoom false fuel (mk2 5 5 (fun y x => Fin (spot y x))) (1/2) [5; 5]%Z false 2 MMin true = Some (Ok (ZResult [cy; cx])) /\ Z.odd 5 = true.
Proof.
  destruct (C57_iterative_zoom_succeeds false (mk2 5 5 (fun y x => Fin (spot y x))) 5 5 (1/2) 5 5 2 MMin 1) as [n [cy [cx H]]]; try lia; try lra; auto.
  - intros [|a [|b [|c l]]]; cbn [inb]; intros H; try tauto; reflexivity.
  - exact spot_gap.
  - exists (S n), cy, cx. split; [apply H; lia|reflexivity].
Qed.

(** *** C74 fails for even zoomshapes: samples [0; 10], zoomshape 4, zoomstep 2, mindiff 5.  The interpolant 5 (1 - cos(pi t)) has
    its minimum 0 exactly at pixel 0, but the returned centre is -1/4, where it is 5 (1 - cos(pi/4)) > 0. *)
Definition two := mk1 2 (fun x => Fin (if (x =? 1)%Z then 10 else 0)).
Lemma sumR_two f : sumR 2 f = f 0%Z + f 1%Z.
Proof. replace 2%Z with (0 + 1 + 1)%Z by lia. rewrite !sumR_S, sumR_0 by lia. rewrite Z.add_0_l. ring. Qed.
Lemma two_interp t : trig_interpR [2%Z] (finite two) [t] = 5 * (1 - cos (PI * t)).
Proof.
  unfold trig_interpR. rewrite sumNR_cons, sumR_two, !sumNR_nil.
  change (finite two [0%Z]) with 0. change (finite two [1%Z]) with 10. rewrite Rmult_0_l. cbn [dirichletN].
  assert (D : Re (Cmult (dirichlet 2 (t - 1)) (RtoC 1)) = (1 - cos (PI * t)) / 2).
  { rewrite Cmult_1_r. unfold dirichlet. rewrite Re_scal, Re_sumC, sumR_two.
    change (2 / 2)%Z with 1%Z. unfold cis, Re. cbn [fst]. change (IZR (0 - 1)) with (-1). change (IZR (1 - 1)) with 0.
    replace (2 * PI * (-1 * (t - 1) / 2)) with (- (PI * t - PI)) by field. replace (2 * PI * (0 * (t - 1) / 2)) with 0 by field.
    rewrite cos_neg, cos_minus, cos_PI, sin_PI, cos_0. lra. }
  rewrite D. lra.
Qed.
Lemma cos_mono x y : 0 <= x -> x < y -> y <= PI -> cos y < cos x.
Proof. intros. apply cos_decreasing_1; lra. Qed.
(** the first best sample of a four-sample view symmetric about its middle and increasing away from it *)
Lemma step1 : zoomed_view1 2 (finite two) 4 0 2 =
  [([-3/4], 5 * (1 + cos (PI/4))); ([-1/4], 5 * (1 - cos (PI/4))); ([1/4], 5 * (1 - cos (PI/4))); ([3/4], 5 * (1 + cos (PI/4)))].
Proof.
  unfold zoomed_view1. change (zrange 4) with [0; 1; 2; 3]%Z. cbn [map]. rewrite !two_interp. unfold sample_at.
  replace (0 + (0 - (4 - 1) / 2) / 2) with (-3/4) by lra. replace (0 + (1 - (4 - 1) / 2) / 2) with (-1/4) by lra.
  replace (0 + (2 - (4 - 1) / 2) / 2) with (1/4) by lra. replace (0 + (3 - (4 - 1) / 2) / 2) with (3/4) by lra.
  assert (A : cos (PI * (3/4)) = - cos (PI/4)). { replace (PI * (3/4)) with (- (PI/4) + PI) by field. rewrite neg_cos, cos_neg. reflexivity. }
  replace (PI * (-3/4)) with (- (PI * (3/4))) by field. replace (PI * (-1/4)) with (- (PI/4)) by field. replace (PI * (1/4)) with (PI/4) by field. rewrite !cos_neg, A.
  repeat (f_equal; try ring).
Qed.
Lemma step2 : zoomed_view1 2 (finite two) 4 (-1/4) 4 =
  [([-5/8], 5 * (1 + cos (3*PI/8))); ([-3/8], 5 * (1 - cos (3*PI/8))); ([-1/8], 5 * (1 - cos (PI/8))); ([1/8], 5 * (1 - cos (PI/8)))].
Proof.
  unfold zoomed_view1. change (zrange 4) with [0; 1; 2; 3]%Z. cbn [map]. rewrite !two_interp. unfold sample_at.
  replace (-1/4 + (0 - (4 - 1) / 2) / 4) with (-5/8) by lra. replace (-1/4 + (1 - (4 - 1) / 2) / 4) with (-3/8) by lra.
  replace (-1/4 + (2 - (4 - 1) / 2) / 4) with (-1/8) by lra. replace (-1/4 + (3 - (4 - 1) / 2) / 4) with (1/8) by lra.
  assert (A : cos (PI * (5/8)) = - cos (3*PI/8)). { replace (PI * (5/8)) with (- (3*PI/8) + PI) by field. rewrite neg_cos, cos_neg. reflexivity. }
  replace (PI * (-5/8)) with (- (PI * (5/8))) by field. replace (PI * (-3/8)) with (- (3*PI/8)) by field. replace (PI * (-1/8)) with (- (PI/8)) by field. replace (PI * (1/8)) with (PI/8) by field.
  rewrite !cos_neg, A. repeat (f_equal; try ring).
Qed.
Ltac inlist H := cbn [In] in H; repeat (destruct H as [<-|H]); [..|contradiction].
Lemma cos_values : 0 < cos (3*PI/8) /\ cos (3*PI/8) < cos (PI/8) /\ cos (PI/8) <= 1 /\ 1/2 < cos (PI/4) < 1.
Proof.
  assert (P := PI_RGT_0). split; [apply cos_gt_0; lra|]. split; [apply cos_mono; lra|]. split; [apply COS_bound|].
  rewrite <- cos_PI3, <- cos_0 at 1. split; apply cos_mono; lra.
Qed.
Theorem C74_even_zoomshape_refuted :
  (forall env fuel, (3 <= fuel)%nat -> iterative_zoom_1d env fuel two 5 [4%Z] false 2 MMin true = Some (Ok (ZResult [-1/4]))) /\
  trig_interpR [2%Z] (get (amap nan0 two)) [-1/4] > nan0 (get two [0%Z]).
Proof.
  destruct cos_values as [C1 [C2 [C3 C4]]]. split.
  - intros env fuel Hf. rewrite (iterative_zoom_1d_loop _ _ _ 2) by (reflexivity || lia).
    replace (has_nan [2%Z] two) with false by reflexivity.
    assert (V0 : pixel_view1 2 (fun x => finite two [x]) = [([0], 0); ([1], 10)]) by reflexivity. rewrite V0.
    destruct fuel as [|[|[|fuel]]]; try lia.
    (* first evaluation *)
    destruct (zloop_S MMin 5 2 [IZR (2 - 1) / 2] (zoom1 env two 2 [4%Z]) (S (S fuel)) [([0], 0); ([1], 10)] 1 None [0] ltac:(discriminate))
      as [[N _]|[[d [G [L _]]]|[d [p [G [L [F E]]]]]]].
    { exfalso. apply N. exists ([0], 0), ([1], 10). cbn [In snd]. repeat split; auto; lra. }
    { exfalso. destruct G as [p [q [Hp [Mp [Hq [D0 [Ed _]]]]]]]. specialize (Mp ([0], 0) ltac:(cbn; auto)). cbn [sgn snd] in Mp.
      inlist Hp; cbn [snd] in *; [|lra]. inlist Hq; cbn [snd] in Ed; [rewrite Rminus_0_r, Rabs_R0 in Ed; lra|]. rewrite Rabs_right in Ed by lra. lra. }
    rewrite E. clear E. assert (Ep : p = ([0], 0)).
    { destruct (first_best_In _ _ _ F) as [Hp Mp]. specialize (Mp ([0], 0) ltac:(cbn; auto)). inlist Hp; cbn [sgn snd] in Mp; [reflexivity|lra]. }
    subst p. cbn [fst]. clear F G L d. rewrite Rmult_1_l, zoom1_view, step1 by (lia || lra).
    set (v1 := [_; _; _; _]). assert (N1 : v1 <> []) by discriminate. destruct (extremum_first MMin v1 N1) as [b [Eb _]]. rewrite Eb.
    assert (V1 : varied v1). { exists ([-3/4], 5 * (1 + cos (PI/4))), ([-1/4], 5 * (1 - cos (PI/4))). cbn [In snd v1]. unfold v1. cbn [In]. repeat split; auto; lra. }
    destruct (forallb _ _) eqn:AZ; [apply (allzero_spec MMin v1 b Eb N1) in AZ; contradiction|]. clear AZ Eb b.
    (* second evaluation *)
    destruct (zloop_S MMin 5 2 [IZR (2 - 1) / 2] (zoom1 env two 2 [4%Z]) (S fuel) v1 2 (Some [0]) (zipw Rminus [0] [IZR (2 - 1) / 2]) N1)
      as [[N _]|[[d [G [L _]]]|[d [p [G [L [F E]]]]]]].
    { contradiction. }
    { exfalso. destruct G as [p [q [Hp [Mp [Hq [D0 [Ed _]]]]]]]. specialize (Mp ([-1/4], 5 * (1 - cos (PI/4))) ltac:(unfold v1; cbn; auto)). cbn [sgn snd] in Mp. unfold v1 in Hp, Hq.
      assert (Sp : snd p = 5 * (1 - cos (PI/4))) by (inlist Hp; cbn [snd] in *; lra). rewrite Sp in Ed.
      inlist Hq; cbn [snd] in Ed; try (rewrite Rminus_diag_eq, Rabs_R0 in Ed by reflexivity; lra); rewrite Rabs_right in Ed by lra; lra. }
    rewrite E. clear E. assert (Ep : fst p = [-1/4]).
    { destruct F as [l1 [l2 [E1 [H1 H2]]]]. unfold v1 in E1.
      destruct l1 as [|a1 l1]; [injection E1 as <- <-; exfalso; specialize (H2 ([-1/4], 5 * (1 - cos (PI/4))) ltac:(cbn; auto)); cbn [sgn snd] in H2; lra|].
      destruct l1 as [|a2 l1]; [injection E1 as _ <- _; reflexivity|]. injection E1 as <- <- E1.
      specialize (H1 ([-1/4], 5 * (1 - cos (PI/4))) ltac:(cbn; auto)). cbn [sgn snd] in H1. exfalso.
      assert (Hp : In p [([1/4], 5 * (1 - cos (PI/4))); ([3/4], 5 * (1 + cos (PI/4)))]) by (rewrite E1; apply in_or_app; right; left; reflexivity).
      inlist Hp; cbn [snd] in H1; lra. }
    rewrite Ep. clear F G L d p Ep. replace (2 * 2) with 4 by ring. rewrite zoom1_view, step2 by (lia || lra).
    set (v2 := [_; _; _; _]). assert (N2 : v2 <> []) by discriminate. destruct (extremum_first MMin v2 N2) as [b [Eb _]]. rewrite Eb.
    assert (V2 : varied v2). { exists ([-5/8], 5 * (1 + cos (3*PI/8))), ([-1/8], 5 * (1 - cos (PI/8))). unfold v2. cbn [In snd]. repeat split; auto; lra. }
    destruct (forallb _ _) eqn:AZ; [apply (allzero_spec MMin v2 b Eb N2) in AZ; contradiction|]. clear AZ Eb b.
    destruct (zloop_S MMin 5 2 [IZR (2 - 1) / 2] (zoom1 env two 2 [4%Z]) fuel v2 4 (Some [-1/4]) (zipw Rminus [-1/4] [IZR (2 - 1) / 2]) N2)
      as [[N _]|[[d [G [L E]]]|[d [p [G [L _]]]]]].
    { contradiction. }
    { rewrite E. reflexivity. }
    exfalso. destruct G as [p' [q [Hp [Mp [Hq [D0 [Ed Md]]]]]]].
    specialize (Md ([-3/8], 5 * (1 - cos (3*PI/8))) ltac:(unfold v2; cbn; auto)). cbn [snd] in Md.
    specialize (Mp ([-1/8], 5 * (1 - cos (PI/8))) ltac:(unfold v2; cbn; auto)). cbn [sgn snd] in Mp. unfold v2 in Hp.
    assert (Sp : snd p' = 5 * (1 - cos (PI/8))) by (inlist Hp; cbn [snd] in *; lra). rewrite Sp in Md. rewrite Rabs_right in Md by lra. specialize (Md ltac:(lra)). lra.
  - change (get (amap nan0 two)) with (finite two). rewrite two_interp. cbn [two mk1 get nan0]. simpl Z.eqb. cbv iota.
    replace (PI * (-1/4)) with (- (PI/4)) by field. rewrite cos_neg. cbv [two mk1 get nan0]. simpl. lra.
Qed.
Print Assumptions C74_even_zoomshape_refuted.

(** *** C44: chi2_shift_iterzoom *)
(** every call fails: the name allow_huge is not defined *)
Theorem C44_chi2_shift_iterzoom_always_fails_refuted :
  forall e fuel im1 im2 err b nthreads use_np zeromean return_error return_chi2array zoom_shape rezoom_shape rezoom_factor mindiff,
  chi2_shift_iterzoom e None fuel im1 im2 err b nthreads use_np zeromean return_error return_chi2array zoom_shape rezoom_shape rezoom_factor mindiff
  = Some (Raise NameError).
Proof. reflexivity. Qed.
Print Assumptions C44_chi2_shift_iterzoom_always_fails_refuted.
(** and if a module global of that name existed, the answer would still be (0,0), whatever the images, as soon as the
    smallest non-zero difference in the chi^2 map is at most mindiff (default 1; chi^2 scales with the image units) *)
Theorem C44_repaired_name_reports_zero_refuted :
  forall e allow_huge fuel im1 im2 err b nthreads use_np zeromean zoom_shape my mx rezoom_factor mindiff chi2 t1 t2 t3 ny nx d,
  chi2n_map e im1 im2 err b nthreads zeromean use_np true false allow_huge = Ok (Chi2All chi2 t1 t2 t3) ->
  shape chi2 = [ny; nx] -> (0 < ny)%Z -> (0 < nx)%Z -> (0 < my)%Z -> (0 < mx)%Z -> rezoom_factor <> 0 ->
  is_gap MMin (pixel_view ny nx (fun y x => g2 chi2 y x)) d -> d <= mindiff -> (0 < fuel)%nat ->
  exists zx zy, zx = 0 /\ zy = 0 /\
  chi2_shift_iterzoom e (Some allow_huge) fuel im1 im2 err b nthreads use_np zeromean false false zoom_shape [my; mx] rezoom_factor mindiff
  = Some (Ok [RNum zx; RNum zy]).
Proof.
  intros e ah fuel im1 im2 err b nt np zm zs my mx rf md chi2 t1 t2 t3 ny nx d Hc Hs Hy Hx Hmy Hmx Hr Hg Hd Hf.
  exists (- 0), (- 0). split; [lra|]. split; [lra|].
  unfold chi2_shift_iterzoom. rewrite Hc.
  rewrite (C59_small_differences (e_fftw e) fuel (Arr (shape chi2) (fun i => Fin (get chi2 i))) ny nx md zs true 2 MMin false d); auto; [].
  set (v := pixel_view _ _ _). set (zf := if forallb _ v then 1 else 1 * rf).
  assert (Hz : zf <> 0) by (unfold zf; destruct (forallb _ v); lra).
  unfold zoomnd. rewrite Hs at 1. cbn [shape ndim length RtoCa amap Nat.eqb Nat.ltb Nat.leb andb negb].
  replace (Nat.eqb 2 (ndim (RtoCa chi2))) with true by (unfold ndim, RtoCa; cbn [shape amap]; rewrite Hs; reflexivity). cbn [negb].
  cbn [shape amap RtoCa]. rewrite Hs. cbn [zipw].
  destruct (zoom2_ok (e_fftw e) (RtoCa chi2) ny nx (IZR (floorR (IZR (ny - 1) / 2)) + 0) (IZR (floorR (IZR (nx - 1) / 2)) + 0) zf (Some [my; mx]) my mx 1 false true true)
    as [xs [r [H1 _]]]; auto.
  rewrite H1. reflexivity.
Qed.
Print Assumptions C44_repaired_name_reports_zero_refuted.
