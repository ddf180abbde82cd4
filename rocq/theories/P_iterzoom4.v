(** C44 (what chi2_shift_iterzoom would return if the name allow_huge existed) and C105 (centers_to_edges) *)
From Coq Require Import ZArith Lia List Reals Lra Bool.
From Coquelicot Require Import Complex.
From Verif Require Import Base NDim DFT Kernel Num Py M_fast_ffts M_shift M_scale M_zoom M_downsample L_downsample M_convolve M_correlate Arg M_chi2
  M_iterzoom Spec Spec2 Spec3 Spec5 Sum2 L_shift L_scale L_zoom P_zoom L_iterzoom L_iterzoom2 L_iterzoom3 P_iterzoom P_iterzoom2 P_iterzoom3
  L_chi2 L_chi2shift P_chi2map P_chi2shift P_chi2errors P_xcorr P_xcorr2 P_noise.
Import ListNotations.
Open Scope R_scope.

Lemma zoom_flags env fuel image md sh step mm c :
  iterative_zoom env fuel image md sh false step mm true = Some (Ok (ZResult c)) ->
  exists out, iterative_zoom env fuel image md sh true step mm false = Some (Ok out).
Proof.
  unfold iterative_zoom. destruct (shape image) as [|a [|b [|x l]]];
  (match goal with |- (if ?c then _ else _) = _ -> _ => destruct c; [discriminate|] end; destruct (has_nan _ _); [discriminate|];
  match goal with |- context [zloop ?a1 ?a2 ?a3 ?a4 ?a5 ?a6 ?a7 ?a8 ?a9 ?a10] => destruct (zloop a1 a2 a3 a4 a5 a6 a7 a8 a9 a10) as [[s|ex]|]; try discriminate end;
  intros _; destruct s as [[[v zf] cen] off]; cbn [zresult bind]; eexists; reflexivity).
Qed.

(** half a pixel on axes of even length *)
Definition half_px (n : Z) : R := if Z.even n then 1 / 2 else 0.
Lemma floor_mid n : IZR (floorR (IZR (n - 1) / 2)) = IZR (n - 1) / 2 - half_px n.
Proof.
  change 2 with (IZR 2). rewrite floorR_div by lia. unfold half_px. destruct (Z.even n) eqn:E.
  - apply Z.even_spec in E. destruct E as [k ->]. replace ((2 * k - 1) / 2)%Z with (k - 1)%Z by (Z.to_euclidean_division_equations; lia).
    rewrite !minus_IZR, mult_IZR. lra.
  - assert (O : Z.odd n = true) by (rewrite <- Z.negb_even, E; reflexivity). apply Z.odd_spec in O. destruct O as [k ->].
    replace ((2 * k + 1 - 1) / 2)%Z with k by (Z.to_euclidean_division_equations; lia).
    rewrite minus_IZR, plus_IZR, mult_IZR. lra.
Qed.

(** With the name defined, and differences in the chi^2 map large enough to start zooming: the shift is (n-1)/2 minus a position
    (cy, cx) found by zooming in, by factors 2, 4, ..., 2^k, around the first minimum (y, x) of the chi^2 map; the error bars are half
    the extents, in pixels of spacing 1 / (2^k rezoom_factor), of the region of the final zoomed map within the 1-sigma level of its
    minimum; the maps are the coordinates and the values of that zoomed map.  It is centred on (cy, cx), half a pixel lower
    along axes of even length. *)
Theorem C44_repaired_result :
  forall e allow_huge im1 im2 err b nthreads use_np zeromean (ret_err ret_arr : bool) zy zx my mx rezoom_factor mindiff chi2 t1 t2 t3 ny nx d t,
  chi2n_map e im1 im2 err b nthreads zeromean use_np true false allow_huge = Ok (Chi2All chi2 t1 t2 t3) ->
  shape chi2 = [ny; nx] -> (0 < ny)%Z -> (0 < nx)%Z -> (0 < zy)%Z -> (0 < zx)%Z -> (0 < my)%Z -> (0 < mx)%Z -> 0 < rezoom_factor -> 0 < mindiff ->
  is_gap MMin (pixel_view ny nx (g2 chi2)) d -> mindiff < d -> one_sigma e t ->
  exists (n k : nat) y x cy cx z ex ey xv yv rez,
    (forall fuel, (n < fuel)%nat ->
     chi2_shift_iterzoom e (Some allow_huge) fuel im1 im2 err b nthreads use_np zeromean ret_err ret_arr [zy; zx] [my; mx] rezoom_factor mindiff
     = Some (Ok ([RNum (- (cx - IZR (nx - 1) / 2)); RNum (- (cy - IZR (ny - 1) / 2))] ++ (if ret_err then [RNum ex; RNum ey] else []) ++
                 (if ret_arr then [RMaps xv yv rez] else [])))) /\
    (* the position *)
    (1 <= k)%nat /\ best_pixel MMin ny nx (g2 chi2) y x /\ Rabs (cy - IZR y) <= IZR (zy - 1) / 2 /\ Rabs (cx - IZR x) <= IZR (zx - 1) / 2 /\
    let last := zoomed_view ny nx (get chi2) zy zx cy cx (2 ^ k) in stops MMin mindiff last /\
    (* the maps *)
    (z = 2 ^ k * rezoom_factor \/ z = 2 ^ k /\ forall p, In p last -> snd p = 0) /\
    shape xv = [my; mx] /\ shape yv = [my; mx] /\ shape rez = [my; mx] /\
    (forall i j, (0 <= i < my)%Z -> (0 <= j < mx)%Z ->
      let py := sample_at (cy - half_px ny) z my i in let px := sample_at (cx - half_px nx) z mx j in
      g2 yv i j = IZR (ny - 1) / 2 - py /\ g2 xv i j = IZR (nx - 1) / 2 - px /\ g2 rez i j = trig_interpR [ny; nx] (get chi2) [py; px]) /\
    (* the errors *)
    exists ym xm xlow xhigh ylow yhigh, is_argmin2 my mx (g2 rez) (ym, xm) /\ ex = (xlow + xhigh) / 2 /\ ey = (ylow + yhigh) / 2 /\
      let P := near_min my mx (g2 rez) ym xm t in let u := 2 ^ k * rezoom_factor in
      largest P (fun y x => IZR (xm - x) / u) xlow /\ largest P (fun y x => IZR (x - xm) / u) xhigh /\
      largest P (fun y x => IZR (ym - y) / u) ylow /\ largest P (fun y x => IZR (y - ym) / u) yhigh.
Proof.
  intros e ah im1 im2 err b nt np zm re ra zy zx my mx rf md chi2 t1 t2 t3 ny nx d t Hc Hs Hy Hx Hzy Hzx Hmy Hmx Hrf Hmd Hg Hd Ht.
  set (image := Arr (shape chi2) (fun i => Fin (get chi2 i))).
  assert (Si : shape image = [ny; nx]) by exact Hs.
  destruct (C57_iterative_zoom_succeeds (e_fftw e) image ny nx md zy zx 2 MMin d Si Hy Hx ltac:(reflexivity) ltac:(lra) Hmd Hzy Hzx Hg Hd) as [n1 [c1 [c2 H1]]].
  destruct (C57_iterative_zoom_always_ends (e_fftw e) image ny nx md zy zx true 2 MMin false Si ltac:(lra) Hmd Hzy Hzx) as [n2 [r H2]].
  set (n := Nat.max n1 n2).
  assert (F1 := H1 (S n) ltac:(lia)). assert (F2 := H2 (S n) ltac:(lia)).
  destruct (zoom_flags _ _ _ _ _ _ _ _ F1) as [out Fo]. rewrite F2 in Fo. injection Fo as ->.
  destruct (C58_iterative_zoom_result (e_fftw e) (S n) image ny nx md zy zx true 2 MMin false out Si ltac:(lra) Hzy Hzx F2)
    as [[d' [G' [L' _]]]|[d' [y [x [k [cy [cx [_ [_ [Bp [K1 [Cy [Cx [St Eo]]]]]]]]]]]]]].
  { exfalso. change (fun y0 x0 => nan0 (get image [y0; x0])) with (g2 chi2) in G'. rewrite (gap_unique _ _ _ _ G' Hg) in L'. lra. }
  change (fun y0 x0 => nan0 (get image [y0; x0])) with (g2 chi2) in Bp.
  change (get (amap nan0 image)) with (fun i => get chi2 i) in St, Eo. cbv iota beta in Eo.
  assert (PK : 0 < 2 ^ k) by (apply pow_lt; lra).
  assert (Q : / 2 ^ (k - 1) <= 1 /\ 0 < / 2 ^ (k - 1)).
  { assert (1 <= 2 ^ (k - 1)) by (apply pow_R1_Rle; lra). split; [rewrite <- Rinv_1; apply Rinv_le_contravar; lra|apply Rinv_0_lt_compat; lra]. }
  set (last := zoomed_view ny nx (get chi2) zy zx cy cx (2 ^ k)) in *.
  change (zoomed_view ny nx (fun i => get chi2 i) zy zx cy cx (2 ^ k)) with last in St, Eo.
  set (z := if forallb (fun p : list R * R => if Req_EM_T (snd p) 0 then true else false) last then 2 ^ k else 2 ^ k * rf).
  assert (Hz : 0 < z) by (unfold z; destruct (forallb _ _); [exact PK|apply Rmult_lt_0_compat; auto]).
  destruct (zoom2_ok (e_fftw e) (RtoCa chi2) ny nx (IZR (floorR (IZR (ny - 1) / 2)) + (cy - IZR (ny - 1) / 2))
    (IZR (floorR (IZR (nx - 1) / 2)) + (cx - IZR (nx - 1) / 2)) z (Some [my; mx]) my mx 1 false true true) as [xs [rz [Z1 [Sx [Sr Zg]]]]]; auto; try lra.
  set (rez := amap Re rz).
  assert (Srez : shape rez = [my; mx]) by exact Sr.
  destruct (one_sigma_thr e t Ht) as [Ht1 Ht2].
  assert (Hu : 0 < 2 ^ k * rf) by (apply Rmult_lt_0_compat; auto).
  destruct (C42_error_bars e rez (2 ^ k * rf) 1 2 my mx t Srez Hmy Hmx Hu Ht1 Ht2) as [ym [xm [xlow [xhigh [ylow [yhigh [Am [Ee [_ [_ [_ [_ [_ [_ Lg]]]]]]]]]]]]]].
  set (coords := fun dd k0 => Arr (shape rez) (fun i => IZR (nth dd (shape chi2) 0%Z - 1) / 2 - get xs (k0 :: i))).
  exists n, k, y, x, cy, cx, z, ((xlow + xhigh) / 2), ((ylow + yhigh) / 2), (coords 1%nat 1%Z), (coords 0%nat 0%Z), rez.
  split.
  { intros fuel Hf. unfold chi2_shift_iterzoom. rewrite Hc. fold image. rewrite (H2 fuel ltac:(lia)), Eo. fold z.
    unfold zoomnd. cbn [length Nat.eqb Nat.ltb Nat.leb].
    replace (ndim (RtoCa chi2)) with 2%nat by (unfold ndim, RtoCa; cbn [shape amap]; rewrite Hs; reflexivity). cbn [Nat.eqb negb andb].
    cbn [shape amap RtoCa]. rewrite Hs. cbn [zipw].
    change (amap RtoC chi2) with (RtoCa chi2). rewrite Z1. cbn [bind with_xouts pick_real]. fold rez. rewrite Ee. cbn [bind].
    unfold coords. rewrite Hs. cbn [rev map app nth]. destruct re, ra; reflexivity. }
  split; [exact K1|]. split; [exact Bp|].
  split. { eapply Rle_trans; [exact Cy|]. rewrite <- (Rmult_1_r (IZR (zy - 1) / 2)) at 2. apply Rmult_le_compat_l; [|lra]. apply Rmult_le_pos; [apply IZR_le; lia|lra]. }
  split. { eapply Rle_trans; [exact Cx|]. rewrite <- (Rmult_1_r (IZR (zx - 1) / 2)) at 2. apply Rmult_le_compat_l; [|lra]. apply Rmult_le_pos; [apply IZR_le; lia|lra]. }
  cbv zeta. split; [exact St|].
  split. { unfold z. destruct (forallb _ last) eqn:EA; [right|left; reflexivity]. split; [reflexivity|]. intros p Hp.
    rewrite forallb_forall in EA. specialize (EA p Hp). cbv beta in EA. destruct (Req_EM_T (snd p) 0); [auto|discriminate]. }
  split; [exact Srez|]. split; [exact Srez|]. split; [exact Srez|].
  split.
  { intros i j Hi Hj. destruct (Zg i j Hi Hj) as [A [B C]]. rewrite (floor_mid ny) in A, C. rewrite (floor_mid nx) in B, C. unfold coords, g2. cbn [get]. rewrite Hs, A, B. cbn [nth].
    assert (Ey : grid_at (IZR (ny - 1) / 2 - half_px ny + (cy - IZR (ny - 1) / 2)) z my i = sample_at (cy - half_px ny) z my i) by (unfold grid_at, sample_at; ring).
    assert (Ex : grid_at (IZR (nx - 1) / 2 - half_px nx + (cx - IZR (nx - 1) / 2)) z mx j = sample_at (cx - half_px nx) z mx j) by (unfold grid_at, sample_at; ring).
    rewrite Ey, Ex. rewrite Ey, Ex in C. split; [reflexivity|]. split; [reflexivity|].
    unfold rez. cbn [get amap]. change (get rz [i; j]) with (g2 rz i j). rewrite C.
    unfold RtoCa. cbn [get amap]. rewrite interpN_realpart by (auto using pos2). reflexivity. }
  exists ym, xm, xlow, xhigh, ylow, yhigh. split; [exact Am|]. split; [reflexivity|]. split; [reflexivity|]. exact Lg.
Qed.
Print Assumptions C44_repaired_result.

(** with the name repaired, exceptions of the chi2 map and of the zoom are passed on *)
Theorem C44_repaired_exceptions :
  forall e allow_huge im1 im2 err b nthreads use_np zeromean (ret_err ret_arr : bool) zoom_shape rezoom_shape rezoom_factor mindiff x,
  (chi2n_map e im1 im2 err b nthreads zeromean use_np true false allow_huge = Raise x ->
   forall fuel, chi2_shift_iterzoom e (Some allow_huge) fuel im1 im2 err b nthreads use_np zeromean ret_err ret_arr zoom_shape rezoom_shape rezoom_factor mindiff = Some (Raise x)) /\
  (forall chi2 t1 t2 t3, chi2n_map e im1 im2 err b nthreads zeromean use_np true false allow_huge = Ok (Chi2All chi2 t1 t2 t3) ->
   forall fuel, iterative_zoom (e_fftw e) fuel (Arr (shape chi2) (fun i => Fin (get chi2 i))) mindiff zoom_shape true 2 MMin false = Some (Raise x) ->
   chi2_shift_iterzoom e (Some allow_huge) fuel im1 im2 err b nthreads use_np zeromean ret_err ret_arr zoom_shape rezoom_shape rezoom_factor mindiff = Some (Raise x)).
Proof.
  intros e huge im1 im2 err b nt np zm re ra zs rs rf md x. unfold chi2_shift_iterzoom. split.
  - intros -> fuel. reflexivity.
  - intros chi2 t1 t2 t3 -> fuel ->. reflexivity.
Qed.
Print Assumptions C44_repaired_exceptions.

(** With a zoom shape of a single sample the position is the first minimum of the map exactly, and the result is
    (n-1)/2 minus it: the whole-pixel shift (n-1)//2 - pixel, plus half a pixel along axes of even length *)
Corollary C44_repaired_single_sample :
  forall e allow_huge im1 im2 err b nthreads use_np zeromean my mx rezoom_factor mindiff chi2 t1 t2 t3 ny nx d t y x,
  chi2n_map e im1 im2 err b nthreads zeromean use_np true false allow_huge = Ok (Chi2All chi2 t1 t2 t3) ->
  shape chi2 = [ny; nx] -> (0 < ny)%Z -> (0 < nx)%Z -> (0 < my)%Z -> (0 < mx)%Z -> 0 < rezoom_factor -> 0 < mindiff ->
  is_gap MMin (pixel_view ny nx (g2 chi2)) d -> mindiff < d -> one_sigma e t -> best_pixel MMin ny nx (g2 chi2) y x ->
  exists (n : nat) tx ty, (forall fuel, (n < fuel)%nat ->
    chi2_shift_iterzoom e (Some allow_huge) fuel im1 im2 err b nthreads use_np zeromean false false [1; 1]%Z [my; mx] rezoom_factor mindiff
    = Some (Ok [RNum tx; RNum ty])) /\
    tx = IZR ((nx - 1) / 2 - x) + half_px nx /\ ty = IZR ((ny - 1) / 2 - y) + half_px ny.
Proof.
  intros e ah im1 im2 err b nt np zm my mx rf md chi2 t1 t2 t3 ny nx d t y x Hc Hs Hy Hx Hmy Hmx Hrf Hmd Hg Hd Ht Hb.
  destruct (C44_repaired_result e ah im1 im2 err b nt np zm false false 1 1 my mx rf md chi2 t1 t2 t3 ny nx d t Hc Hs Hy Hx ltac:(lia) ltac:(lia) Hmy Hmx Hrf Hmd Hg Hd Ht)
    as [n [k [y' [x' [cy [cx [z [ex [ey [xv [yv [rez [R [_ [Hb' [Cy [Cx _]]]]]]]]]]]]]]]]].
  assert (E := is_argmin2_unique ny nx _ _ _ Hb Hb'). injection E as <- <-.
  change (IZR (1 - 1) / 2) with (0 / 2) in Cy, Cx. unfold Rdiv in Cy at 1, Cx at 1. rewrite Rmult_0_l in Cy, Cx.
  assert (A : forall u v, Rabs (u - v) <= 0 -> u = v).
  { intros u v H. assert (P := Rabs_pos (u - v)). assert (Q : Rabs (u - v) = 0) by lra. destruct (Req_dec (u - v) 0); [lra|]. apply Rabs_no_R0 in H0. contradiction. }
  apply A in Cy, Cx. subst cy cx. exists n. do 2 eexists. split; [exact R|].
  assert (M : forall m, IZR ((m - 1) / 2) = IZR (m - 1) / 2 - half_px m).
  { intros m. rewrite <- floor_mid. change (IZR (m - 1) / 2) with (IZR (m - 1) / IZR 2). rewrite floorR_div by lia. reflexivity. }
  rewrite !minus_IZR, !M, !minus_IZR. split; lra.
Qed.
Print Assumptions C44_repaired_single_sample.


(** chi^2 of a 4 x 4 single-pixel image against itself *)
Lemma dot_chi2 e nt np :
  exists chi2 t1 t2 t3, chi2n_map e (dot 4 4 0 0) (dot 4 4 0 0) ErrNone BWrap nt false np true false true = Ok (Chi2All chi2 t1 t2 t3) /\
    shape chi2 = [4; 4]%Z /\ forall k l, (0 <= k < 4)%Z -> (0 <= l < 4)%Z -> g2 chi2 k l = if ((k =? 1) && (l =? 1))%Z then 0 else 2.
Proof.
  destruct (chi2n_map_ok e (dot 4 4 0 0) (dot 4 4 0 0) ErrNone nt false np true false true 4 4 eq_refl eq_refl ltac:(lia) ltac:(lia) I ltac:(left; reflexivity) ltac:(discriminate))
    as [c [t1 [t2 [t3 [E [Sc [_ [_ G]]]]]]]].
  exists c, t1, t2, t3. split; [exact E|]. split; [exact Sc|]. intros k l Hk Hl. destruct (G k l Hk Hl) as [_ [_ ->]]. clear G E.
  set (f := prep false (dot 4 4 0 0) 4 4).
  transitivity (sqdist 4 4 f (rolled 4 4 f (1 - k) (1 - l))).
  { unfold chi2_of, sqdist, rolled. apply sum2_ext. intros i j _ _. unfold used_image. cbn [err_zero sigma_of]. fold f. change ((4 - 1) / 2)%Z with 1%Z. unfold Rdiv. rewrite Rinv_1. ring. }
  rewrite (proj1 (sqdist_ccf 4 4 f f (1 - k) (1 - l) ltac:(lia) ltac:(lia))).
  assert (D : forall s t, ccf 4 4 f f s t = f ((0 + s) mod 4)%Z ((0 + t) mod 4)%Z).
  { intros s t. apply (ccf_delta 4 4 f f 0 0); try lia. intros; apply dot_prep. }
  assert (En : pixel_sum 4 4 (fun i j => f i j ^ 2) = 1).
  { transitivity (ccf 4 4 f f 0 0).
    - unfold ccf. apply sum2_ext. intros i j Hi Hj. rewrite !Z.sub_0_r, !Z.mod_small by lia. ring.
    - rewrite D. unfold f. rewrite dot_prep. reflexivity. }
  rewrite En, D. unfold f. rewrite dot_prep, !Z.add_0_l.
  assert (Ck : forall q, (0 <= q < 4)%Z -> ((1 - q) mod 4 =? 0)%Z = (q =? 1)%Z).
  { intros q Hq. assert (q = 0 \/ q = 1 \/ q = 2 \/ q = 3)%Z as [->|[->|[->| ->]]] by lia; reflexivity. }
  rewrite !Ck by auto. destruct (_ && _)%bool; lra.
Qed.

(** the half pixel is wrong: two identical 4 x 4 images would be found shifted by (1/2, 1/2) *)
Theorem C44_repaired_even_size_refuted :
  forall e nthreads use_np t, one_sigma e t ->
  exists n tx ty, (forall fuel, (n < fuel)%nat ->
    chi2_shift_iterzoom e (Some true) fuel (dot 4 4 0 0) (dot 4 4 0 0) ErrNone BWrap nthreads use_np false false false [1; 1]%Z [100; 100]%Z 5 1
    = Some (Ok [RNum tx; RNum ty])) /\ tx = 1 / 2 /\ ty = 1 / 2.
Proof.
  intros e nt np t Ht. destruct (dot_chi2 e nt np) as [c [t1 [t2 [t3 [E [Sc G]]]]]].
  assert (B : best_pixel MMin 4 4 (g2 c) 1 1).
  { unfold best_pixel, is_argmin2. cbn [fst snd sgn]. split; [lia|]. split; [lia|]. rewrite (G 1%Z 1%Z) by lia. cbn [Z.eqb Pos.eqb andb]. split.
    - intros i j Hi Hj. rewrite G by auto. destruct (_ && _)%bool; lra.
    - intros i j Hi Hj L. rewrite G by auto. destruct (Z.eqb_spec i 1), (Z.eqb_spec j 1); cbn [andb]; try lra. lia. }
  assert (P : forall i j, (0 <= i < 4)%Z -> (0 <= j < 4)%Z -> In ([IZR i; IZR j], g2 c i j) (pixel_view 4 4 (g2 c))).
  { intros i j Hi Hj. apply in_map_iff. exists (i, j). split; [reflexivity|]. apply pixels_In. auto. }
  assert (V : forall r, In r (pixel_view 4 4 (g2 c)) -> snd r = 0 \/ snd r = 2).
  { intros r Hr. apply in_map_iff in Hr. destruct Hr as [[i j] [<- Hr]]. apply pixels_In in Hr. cbn [fst snd]. rewrite G by tauto. destruct (_ && _)%bool; auto. }
  assert (Gap : is_gap MMin (pixel_view 4 4 (g2 c)) 2).
  { exists ([IZR 1; IZR 1], g2 c 1%Z 1%Z), ([IZR 0; IZR 0], g2 c 0%Z 0%Z). split; [apply P; lia|]. cbn [snd sgn].
    rewrite !G by lia. cbn [Z.eqb Pos.eqb andb]. split; [intros r Hr; destruct (V r Hr) as [-> | ->]; lra|].
    split. { assert (Q := P 0%Z 0%Z ltac:(lia) ltac:(lia)). rewrite (G 0%Z 0%Z) in Q by lia. exact Q. }
    split; [lra|]. split; [rewrite Rminus_0_r, Rabs_right; lra|].
    intros r Hr N. destruct (V r Hr) as [Q|Q]; [exfalso; apply N; exact Q|]. rewrite Q, Rminus_0_r, Rabs_right; lra. }
  destruct (C44_repaired_single_sample e true (dot 4 4 0 0) (dot 4 4 0 0) ErrNone BWrap nt np false 100 100 5 1 c t1 t2 t3 4 4 2 t 1 1
    E Sc ltac:(lia) ltac:(lia) ltac:(lia) ltac:(lia) ltac:(lra) ltac:(lra) Gap ltac:(lra) Ht B) as [n [tx [ty [R [Ex Ey]]]]].
  exists n, tx, ty. split; [exact R|]. rewrite Ex, Ey. change ((4 - 1) / 2 - 1)%Z with 0%Z. unfold half_px. cbn [Z.even]. split; lra.
Qed.
Print Assumptions C44_repaired_even_size_refuted.

(** *** C105 *)
Theorem C105_edges_of_equal_bins :
  forall (n : Z) first step, (2 <= n)%Z -> 0 <= step ->
  exists e, centers_to_edges (map (fun i => first + IZR i * step) (zrange n)) = Ok e /\ shape e = [(n + 1)%Z] /\
    forall i, (0 <= i <= n)%Z -> get e [i] = first + (IZR i - 1 / 2) * step.
Proof.
  intros n a s Hn Hs. set (f := fun i => a + IZR i * s).
  assert (Sp : exists tl, map f (zrange n) = f 0%Z :: f 1%Z :: tl).
  { replace n with (2 + (n - 2))%Z by lia. rewrite zrange_app, map_app by lia. eexists. reflexivity. }
  assert (Ne : zrange n <> []) by (apply zrange_nonempty; lia).
  destruct (lmin_map f (zrange n) Ne) as [i0 [I0 [Emin Hmin]]]. destruct (lmax_map f (zrange n) Ne) as [i1 [I1 [Emax Hmax]]].
  assert (Lo : f i0 = a).
  { assert (H := Hmin 0%Z ltac:(apply zrange_In; lia)). apply zrange_In in I0. unfold f in *.
    assert (0 <= IZR i0 * s) by (apply Rmult_le_pos; [apply IZR_le; lia|auto]). lra. }
  assert (Hi : f i1 = a + IZR (n - 1) * s).
  { assert (H := Hmax (n - 1)%Z ltac:(apply zrange_In; lia)). apply zrange_In in I1. unfold f in *.
    assert (IZR i1 * s <= IZR (n - 1) * s) by (apply Rmult_le_compat_r; [auto|apply IZR_le; lia]). lra. }
  assert (Len : Z.of_nat (length (map f (zrange n))) = n) by (rewrite map_length; apply zrange_length; lia).
  destruct Sp as [tl Sp]. unfold centers_to_edges. rewrite Sp in *. rewrite Emin, Emax, Len. cbn [bind]. rewrite Lo, Hi.
  unfold linspace. destruct (Z.ltb_spec (n + 1) 0); [lia|]. eexists. split; [reflexivity|]. split; [reflexivity|].
  intros i Hii. cbn [get mk1]. unfold linspace_at. destruct (Z.leb_spec (n + 1) 1); [lia|]. replace (n + 1 - 1)%Z with n by lia.
  unfold f. rewrite minus_IZR. field. apply IZR_neq0. lia.
Qed.
Print Assumptions C105_edges_of_equal_bins.

(** so every centre lies in the middle of its bin, and consecutive bins touch *)
Corollary C105_centres_between_edges :
  forall (n : Z) first step, (2 <= n)%Z -> 0 <= step ->
  exists e, centers_to_edges (map (fun i => first + IZR i * step) (zrange n)) = Ok e /\
    forall i, (0 <= i < n)%Z -> (get e [i] + get e [(i + 1)%Z]) / 2 = first + IZR i * step /\ get e [(i + 1)%Z] - get e [i] = step.
Proof.
  intros n a s Hn Hs. destruct (C105_edges_of_equal_bins n a s Hn Hs) as [e [E [_ G]]]. exists e. split; [exact E|].
  intros i Hi. rewrite !G, plus_IZR by lia. split; field.
Qed.
Print Assumptions C105_centres_between_edges.

Theorem C105_too_short :
  forall l, (length l < 2)%nat -> centers_to_edges l = Raise IndexError.
Proof. intros [|a [|b l]] H; try reflexivity. cbn [length] in H. lia. Qed.
Print Assumptions C105_too_short.

(** descending or unequally spaced centres do not lie in their bins *)
Theorem C105_descending_refuted :
  exists e, centers_to_edges [1; 0] = Ok e /\ get e [0%Z] = 1 / 2 /\ get e [1%Z] = 1 / 2 /\ get e [2%Z] = 1 / 2.
Proof.
  unfold centers_to_edges, lmin, lmax. cbn [fold_left bind length Z.of_nat Pos.of_succ_nat Pos.succ].
  eexists. split; [reflexivity|]. cbn [get mk1]. unfold linspace_at. change (2 + 1)%Z with 3%Z. change (3 <=? 1)%Z with false. cbv iota.
  rewrite Rmin_right, Rmax_left by lra. change (IZR (3 - 1)) with 2. repeat split; lra.
Qed.
Print Assumptions C105_descending_refuted.
Theorem C105_unequal_refuted :
  exists e, centers_to_edges [0; 1; 10] = Ok e /\ get e [1%Z] = 19 / 6.
Proof.
  unfold centers_to_edges, lmin, lmax. cbn [fold_left bind length Z.of_nat Pos.of_succ_nat Pos.succ].
  eexists. split; [reflexivity|]. cbn [get mk1]. unfold linspace_at. change (3 + 1)%Z with 4%Z. change (4 <=? 1)%Z with false. cbv iota.
  rewrite (Rmin_left 0 1), Rmin_left, (Rmax_right 0 1), Rmax_right by lra. change (IZR (4 - 1)) with 3. lra.
Qed.
Print Assumptions C105_unequal_refuted.
Example C105_nonvacuous : exists e, centers_to_edges (map (fun i => 1 / 4 + IZR i * (1 / 2)) (zrange 5)) = Ok e /\ get e [0%Z] = 0 /\ get e [5%Z] = 5 / 2.
Proof.
  destruct (C105_edges_of_equal_bins 5 (1 / 4) (1 / 2) ltac:(lia) ltac:(lra)) as [e [E [_ G]]]. exists e. split; [exact E|]. rewrite !G by lia. split; lra.
Qed.
