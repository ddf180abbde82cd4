(** C109: iterative_zoom and iterative_zoom_1d on integer images *)
From Coq Require Import ZArith Lia List Reals Lra Bool.
From Coquelicot Require Import Complex.
From Verif Require Import Base NDim DFT Kernel Num Py M_fast_ffts M_shift M_scale M_zoom M_downsample L_downsample M_convolve M_correlate Arg M_chi2 M_intdtype
  M_iterzoom M_intzoom Spec Spec2 Spec3 Spec5 Sum2 L_iterzoom L_iterzoom3 P_iterzoom P_iterzoom2 P_iterzoom3 P_iterzoom5 P_intdtype L_intzoom.
Import ListNotations.
Open Scope R_scope.

(** same result, whatever the rank and the options, as long as no difference from the extreme value leaves the dtype *)
Theorem C109_same_when_differences_fit :
  forall dt mm (image : arr Z), (0 < bits dt)%Z ->
  (forall i j, inb (shape image) i -> extreme_at mm (shape image) (get image) j ->
     fits dt (get image i - get image j) /\ fits dt (Z.abs (get image i - get image j))) ->
  forall has_fftw fuel mindiff zoomshape rz step rc,
  iterative_zoom_int dt has_fftw fuel image mindiff zoomshape rz step mm rc = iterative_zoom has_fftw fuel (as_float image) mindiff zoomshape rz step mm rc /\
  iterative_zoom_1d_int dt has_fftw fuel image mindiff zoomshape rz step mm rc = iterative_zoom_1d has_fftw fuel (as_float image) mindiff zoomshape rz step mm rc.
Proof. intros dt mm image Hb F env fuel md zs rz step rc. apply both_same. intros v fl m st mid zoom off P S. apply loop_same; auto. Qed.
Print Assumptions C109_same_when_differences_fit.

(** unsigned images and np.min (the default) *)
Corollary C109_unsigned_minimum :
  forall dt (image : arr Z), (0 < bits dt)%Z -> signed dt = false -> (forall i, inb (shape image) i -> fits dt (get image i)) ->
  forall has_fftw fuel mindiff zoomshape rz step rc,
  iterative_zoom_int dt has_fftw fuel image mindiff zoomshape rz step MMin rc = iterative_zoom has_fftw fuel (as_float image) mindiff zoomshape rz step MMin rc /\
  iterative_zoom_1d_int dt has_fftw fuel image mindiff zoomshape rz step MMin rc = iterative_zoom_1d has_fftw fuel (as_float image) mindiff zoomshape rz step MMin rc.
Proof.
  intros dt image Hb Hu F. apply C109_same_when_differences_fit; auto. intros i j Hi [Hj M]. specialize (M i Hi). assert (Fi := F i Hi). assert (Fj := F j Hj).
  unfold fits in *. rewrite Hu in *. lia.
Qed.
Print Assumptions C109_unsigned_minimum.
(** signed images whose values span less than half the range of the dtype *)
Corollary C109_signed_small_range :
  forall dt mm (image : arr Z), (0 < bits dt)%Z -> signed dt = true ->
  (forall i j, inb (shape image) i -> inb (shape image) j -> (get image i - get image j < 2 ^ (bits dt - 1))%Z) ->
  forall has_fftw fuel mindiff zoomshape rz step rc,
  iterative_zoom_int dt has_fftw fuel image mindiff zoomshape rz step mm rc = iterative_zoom has_fftw fuel (as_float image) mindiff zoomshape rz step mm rc /\
  iterative_zoom_1d_int dt has_fftw fuel image mindiff zoomshape rz step mm rc = iterative_zoom_1d has_fftw fuel (as_float image) mindiff zoomshape rz step mm rc.
Proof.
  intros dt mm image Hb Hu F. apply C109_same_when_differences_fit; auto. intros i j Hi [Hj M]. assert (A := F i j Hi Hj). assert (B := F j i Hj Hi).
  unfold fits. rewrite Hu. lia.
Qed.
Print Assumptions C109_signed_small_range.

(** *** unsigned images and np.max *)
Lemma wrapZ_neg dt z : signed dt = false -> (0 < bits dt)%Z -> (0 < z < 2 ^ bits dt)%Z -> wrapZ dt (- z) = (2 ^ bits dt - z)%Z.
Proof.
  intros Hu Hb Hz. unfold wrapZ, lowest. rewrite Hu. rewrite Z.sub_0_r, Z.add_0_r. symmetry. apply (Z.mod_unique_pos (- z) (2 ^ bits dt) (-1)); lia.
Qed.
(** the gap is that of the faintest pixel, wrapped round *)
Lemma unsigned_max_gap dt sh (f : list Z -> Z) lo hi : (0 < bits dt)%Z -> signed dt = false -> (forall i, inb sh i -> fits dt (f i)) -> inb sh lo -> inb sh hi ->
  (forall i, inb sh i -> f lo <= f i <= f hi)%Z -> (f lo < f hi)%Z ->
  int_gap dt MMax (map f (all_indices sh)) = Ok (IZR (2 ^ bits dt - (f hi - f lo))).
Proof.
  intros Hb Hu F Hlo Hhi M L. assert (Nn : In (f lo) (map f (all_indices sh))) by (apply in_map, all_indices_In, Hlo).
  destruct (map f (all_indices sh)) as [|z t] eqn:E; [destruct Nn|]. destruct (vals_extreme MMax sh f z t E) as [j [[Hj Mj] Ej]].
  assert (Ehi : int_extreme MMax z t = f hi) by (rewrite Ej; specialize (Mj hi Hhi); specialize (M j Hj); lia).
  assert (D : forall i, inb sh i -> (f i < f hi)%Z -> int_delta dt (f hi) (f i) = (2 ^ bits dt - (f hi - f i))%Z).
  { intros i Hi Li. unfold int_delta. assert (A := F i Hi). assert (B := F hi Hhi). unfold fits in A, B. rewrite Hu in A, B.
    replace (f i - f hi)%Z with (- (f hi - f i))%Z by lia. rewrite wrapZ_neg by (auto; lia). rewrite Z.abs_eq by lia. apply wrapZ_fits; [exact Hb|]. unfold fits. rewrite Hu. lia. }
  assert (D0 : int_delta dt (f hi) (f hi) = 0%Z).
  { unfold int_delta. rewrite Z.sub_diag. assert (P : (0 < 2 ^ bits dt)%Z) by (apply Z.pow_pos_nonneg; lia).
    rewrite (wrapZ_fits dt 0) by (auto; unfold fits; rewrite Hu; lia). apply wrapZ_fits; [exact Hb|]. unfold fits. rewrite Hu. cbn [Z.abs]. lia. }
  unfold int_gap. rewrite Ehi, <- E. set (l := map IZR _).
  assert (Il : forall x, In x l <-> exists i, inb sh i /\ (f i < f hi)%Z /\ x = IZR (2 ^ bits dt - (f hi - f i))).
  { intros x. unfold l. rewrite in_map_iff. split.
    - intros [d [<- Hd]]. apply filter_In in Hd. destruct Hd as [Hd P]. apply Z.ltb_lt in P. rewrite map_map, in_map_iff in Hd. destruct Hd as [i [Ed Hi]].
      apply all_indices_In in Hi. destruct (Z.eq_dec (f i) (f hi)) as [Q|Q]; [rewrite Q, D0 in Ed; lia|]. specialize (M i Hi). exists i. split; [exact Hi|]. split; [lia|].
      rewrite <- Ed, D by (auto; lia). reflexivity.
    - intros [i [Hi [Li ->]]]. exists (2 ^ bits dt - (f hi - f i))%Z. split; [reflexivity|]. apply filter_In. split.
      + rewrite map_map, in_map_iff. exists i. split; [apply D; auto|]. apply all_indices_In, Hi.
      + apply Z.ltb_lt. assert (A := F i Hi). assert (B := F hi Hhi). unfold fits in A, B. rewrite Hu in A, B. lia. }
  assert (In0 : In (IZR (2 ^ bits dt - (f hi - f lo))) l) by (apply Il; exists lo; auto).
  assert (Nl : l <> []) by (intros Q; rewrite Q in In0; destruct In0). destruct (lmin_ok l Nl) as [m [Em [Im Mm]]]. rewrite Em. f_equal. apply Rle_antisym; [apply Mm, In0|].
  apply Il in Im. destruct Im as [i [Hi [_ ->]]]. specialize (M i Hi). apply IZR_le. lia.
Qed.

(** with np.max the test before the first zoom looks at the faintest pixel: if max - min is close to the full range of the dtype nothing is zoomed *)
Theorem C109_unsigned_maximum_not_zoomed :
  forall dt (image : arr Z) lo hi, (0 < bits dt)%Z -> signed dt = false -> (forall i, inb (shape image) i -> fits dt (get image i)) ->
  inb (shape image) lo -> inb (shape image) hi -> (forall i, inb (shape image) i -> get image lo <= get image i <= get image hi)%Z -> (get image lo < get image hi)%Z ->
  forall has_fftw fuel mindiff zoomshape (rz : bool) step, (0 < fuel)%nat -> pos_shape (shape image) ->
  IZR (2 ^ bits dt - (get image hi - get image lo)) <= mindiff ->
  iterative_zoom_int dt has_fftw fuel image mindiff zoomshape rz step MMax true = Some (Raise UnboundLocalError) /\
  iterative_zoom_int dt has_fftw fuel image mindiff zoomshape false step MMax false = Some (Ok (ZResult (repeat 0 (length (shape image))))) /\
  iterative_zoom_1d_int dt has_fftw fuel image mindiff zoomshape rz step MMax true = Some (Raise UnboundLocalError) /\
  iterative_zoom_1d_int dt has_fftw fuel image mindiff zoomshape false step MMax false = Some (Ok (ZResult [0])).
Proof.
  intros dt image lo hi Hb Hu F Hlo Hhi M L env fuel md zs rz step Hf P Hm. destruct fuel as [|fuel]; [lia|].
  assert (G := unsigned_max_gap dt (shape image) (get image) lo hi Hb Hu F Hlo Hhi M L).
  assert (W : forall v mid zoom off rz' rc, v <> [] -> pack rz' rc (zloop_first (int_gap dt MMax (map (get image) (all_indices (shape image)))) (S fuel) MMax md step mid zoom v off) =
    Some (if rc then Raise UnboundLocalError else Ok (if rz' then ZZoomed v 1 off else ZResult off))).
  { intros v mid zoom off rz' rc Nv. rewrite G. destruct (extremum_ok MMax v Nv) as [p [E _]]. unfold zloop_first. rewrite E. destruct (Rlt_dec _ _) as [B|_]; [lra|].
    cbn [pack zresult]. destruct rc; [reflexivity|]. destruct rz'; reflexivity. }
  assert (A : forall rz' rc, exists v, iterative_zoom_int dt env (S fuel) image md zs rz' step MMax rc =
    Some (if (rc : bool) then Raise UnboundLocalError else Ok (if rz' then ZZoomed v 1 (repeat 0 (length (shape image))) else ZResult (repeat 0 (length (shape image)))))).
  { intros rz' rc. destruct (Nat.eq_dec (length (shape image)) 2) as [E|N].
    - destruct (shape image) as [|ny [|nx [|x l]]] eqn:Es; try discriminate. inversion P as [|? ? P1 P2]; subst. inversion P2 as [|? ? P3 _]; subst.
      eexists. rewrite (int_loop2 _ _ _ _ ny nx) by auto. cbn [length repeat]. apply W. apply map_nonempty, pixels_nonempty; lia.
    - eexists. rewrite int_loop_rank by auto. rewrite (proj2 (pos_shapeb_spec _) P). cbn [negb]. apply W.
      apply (shows_nonempty _ (shape image) (fun i => IZR (get image i))); [|exact P]. apply (shows_all (shape image) (fun i => IZR (get image i)) (fun i => map IZR (firstn 2 i))). }
  assert (B : forall rz' rc, exists v, iterative_zoom_1d_int dt env (S fuel) image md zs rz' step MMax rc =
    Some (if (rc : bool) then Raise UnboundLocalError else Ok (if rz' then ZZoomed v 1 [0] else ZResult [0]))).
  { intros rz' rc. destruct (Nat.eq_dec (length (shape image)) 1) as [E|N].
    - destruct (shape image) as [|n [|x l]] eqn:Es; try discriminate. inversion P as [|? ? P1 P2]; subst.
      eexists. rewrite (int_loop1 _ _ _ _ n) by auto. apply W. apply map_nonempty, zrange_nonempty; lia.
    - eexists. rewrite int_loop_rank1 by auto. rewrite (proj2 (pos_shapeb_spec _) P). cbn [negb]. apply W.
      apply (shows_nonempty _ (shape image) (fun i => IZR (get image i))); [|exact P]. apply shows_flat. exact P. }
  split; [destruct (A rz true) as [v E]; exact E|]. split; [destruct (A false false) as [v E]; exact E|].
  split; [destruct (B rz true) as [v E]; exact E|destruct (B false false) as [v E]; exact E].
Qed.
Print Assumptions C109_unsigned_maximum_not_zoomed.

(** hence: an unsigned image containing both 0 and the largest value of its dtype, such as a saturated star on an empty background, is never zoomed,
    while the same image as floats is *)
Theorem C109_saturated_star_refuted :
  forall dt (image : arr Z) ny nx lo hi, shape image = [ny; nx] -> (0 < bits dt)%Z -> signed dt = false -> (forall i, inb [ny; nx] i -> fits dt (get image i)) ->
  inb [ny; nx] lo -> inb [ny; nx] hi -> get image lo = 0%Z -> get image hi = (2 ^ bits dt - 1)%Z ->
  forall has_fftw my mx step mindiff d, (0 < my)%Z -> (0 < mx)%Z -> 1 < step -> 1 <= mindiff ->
  is_gap MMax (pixel_view ny nx (fun y x => IZR (get image [y; x]))) d -> mindiff < d ->
  (forall fuel rz, (0 < fuel)%nat -> iterative_zoom_int dt has_fftw fuel image mindiff [my; mx] rz step MMax true = Some (Raise UnboundLocalError)) /\
  (exists (n : nat) cy cx, forall fuel, (n < fuel)%nat -> iterative_zoom has_fftw fuel (as_float image) mindiff [my; mx] false step MMax true = Some (Ok (ZResult [cy; cx]))).
Proof.
  intros dt image ny nx lo hi Hs Hb Hu F Hlo Hhi Elo Ehi env my mx step md d Hmy Hmx Hst Hmd G Hd.
  assert (Py : (0 < ny)%Z /\ (0 < nx)%Z) by (destruct lo as [|a [|b [|c l]]]; cbn [inb] in Hlo; try tauto; lia). destruct Py as [Hy Hx].
  assert (P : (1 < 2 ^ bits dt)%Z) by (apply Z.pow_gt_1; lia). split.
  - intros fuel rz Hf. assert (T := C109_unsigned_maximum_not_zoomed dt image lo hi). rewrite Hs in T. apply T; auto.
    + intros i Hi. specialize (F i Hi). unfold fits in F. rewrite Hu in F. lia.
    + lia.
    + repeat constructor; auto.
    + rewrite Elo, Ehi. replace (2 ^ bits dt - (2 ^ bits dt - 1 - 0))%Z with 1%Z by lia. exact Hmd.
  - apply (C57_iterative_zoom_succeeds env (as_float image) ny nx md my mx step MMax d); auto; lra.
Qed.
Print Assumptions C109_saturated_star_refuted.

(** and the other way round: an image that is fine enough already, and not zoomed as floats, is zoomed as unsigned integers *)
Theorem C109_needless_zoom_refuted :
  forall dt (image : arr Z) ny nx lo hi, shape image = [ny; nx] -> (0 < bits dt)%Z -> signed dt = false -> (forall i, inb [ny; nx] i -> fits dt (get image i)) ->
  inb [ny; nx] lo -> inb [ny; nx] hi -> (forall i, inb [ny; nx] i -> get image lo <= get image i <= get image hi)%Z -> (get image lo < get image hi)%Z ->
  forall has_fftw fuel step mindiff d y x, (0 < fuel)%nat -> step <> 0 ->
  is_gap MMax (pixel_view ny nx (fun y x => IZR (get image [y; x]))) d -> d <= mindiff -> mindiff < IZR (2 ^ bits dt - (get image hi - get image lo)) ->
  best_pixel MMax ny nx (fun y x => IZR (get image [y; x])) y x ->
  iterative_zoom has_fftw fuel (as_float image) mindiff [1; 1]%Z false step MMax true = Some (Raise UnboundLocalError) /\
  iterative_zoom_int dt has_fftw fuel image mindiff [1; 1]%Z false step MMax true = Some (Ok (ZResult [IZR y; IZR x])).
Proof.
  intros dt image ny nx lo hi Hs Hb Hu F Hlo Hhi M L env fuel step md d y x Hf Hst G Hd Hm B.
  assert (Py : (0 < ny)%Z /\ (0 < nx)%Z) by (destruct lo as [|a [|b [|c l]]]; cbn [inb] in Hlo; try tauto; lia). destruct Py as [Hy Hx]. split.
  - rewrite (C59_small_differences env fuel (as_float image) ny nx md [1; 1]%Z false step MMax true d) by auto. reflexivity.
  - rewrite (int_loop2 _ _ _ _ ny nx) by auto. rewrite (unsigned_max_gap dt [ny; nx] (get image) lo hi) by auto.
    set (v := pixel_view ny nx (fun y x => finite (as_float image) [y; x])). assert (Nv : v <> []) by (apply map_nonempty, pixels_nonempty; lia).
    destruct (extremum_first MMax v Nv) as [p [E Fp]]. destruct fuel as [|fuel]; [lia|]. unfold zloop_first. rewrite E. destruct (Rlt_dec _ _) as [_|C]; [|contradiction].
    destruct (first_best_pixel MMax ny nx (fun y x => finite (as_float image) [y; x]) p Fp) as [y' [x' [B' ->]]].
    destruct (best_pixel_unique _ _ _ _ _ _ _ _ B' B) as [-> ->]. cbn [fst]. rewrite zoom2_view by (auto; try lia; rewrite Rmult_1_l; auto).
    unfold zoomed_view. change (pixels 1 1) with [(0, 0)]%Z. cbn [map fst snd extremum fold_left abs_deltas forallb].
    rewrite Rminus_diag_eq, Rabs_R0 by reflexivity. unfold nonzero. destruct (Rlt_dec 0 0) as [C|_]; [lra|]. reflexivity.
Qed.
Print Assumptions C109_needless_zoom_refuted.

(** cases: a 2x2 uint8 image with one saturated pixel; and one with values 0, 9 and 10 *)
Example C109_nonvacuous :
  let image := mk2 2 2 (fun y x => if (y =? 0)%Z && (x =? 1)%Z then 255%Z else 0%Z) in let uint8 := IDtype false 8 in
  (forall i, inb [2; 2]%Z i -> fits uint8 (get image i)) /\ is_gap MMax (pixel_view 2 2 (fun y x => IZR (get image [y; x]))) 255 /\
  let image2 := mk2 2 2 (fun y x => if (y =? 0)%Z then (9 + x)%Z else 0%Z) in
  (forall i, inb [2; 2]%Z i -> fits uint8 (get image2 i)) /\ is_gap MMax (pixel_view 2 2 (fun y x => IZR (get image2 [y; x]))) 1 /\
  best_pixel MMax 2 2 (fun y x => IZR (get image2 [y; x])) 0 1 /\ (1 < IZR (2 ^ 8 - 10)).
Proof.
  assert (I2 : forall i, inb [2; 2]%Z i -> i = [0; 0]%Z \/ i = [0; 1]%Z \/ i = [1; 0]%Z \/ i = [1; 1]%Z).
  { intros [|a [|b [|c l]]]; cbn [inb]; intros H; try tauto. assert (A : (a = 0 \/ a = 1)%Z) by lia. assert (B : (b = 0 \/ b = 1)%Z) by lia.
    destruct A as [-> | ->], B as [-> | ->]; auto. }
  assert (V : forall f, pixel_view 2 2 f = [([0; 0], f 0%Z 0%Z); ([0; 1], f 0%Z 1%Z); ([1; 0], f 1%Z 0%Z); ([1; 1], f 1%Z 1%Z)]) by reflexivity.
  cbv zeta. rewrite !V. split; [intros i Hi; destruct (I2 i Hi) as [-> |[-> |[-> | ->]]]; unfold fits; cbn; lia|]. split.
  { exists ([0; 1], 255), ([0; 0], 0). split; [cbn; tauto|]. split.
    - intros r Hr. cbn in Hr. destruct Hr as [<-|[<-|[<-|[<-|[]]]]]; cbn; lra.
    - split; [cbn; tauto|]. split; [lra|]. cbn [snd]. split; [rewrite Rabs_left by lra; lra|].
      intros r Hr N. cbn in Hr. destruct Hr as [<-|[<-|[<-|[<-|[]]]]]; cbn [snd] in *; try lra; rewrite Rabs_left by lra; lra. }
  split; [intros i Hi; destruct (I2 i Hi) as [-> |[-> |[-> | ->]]]; unfold fits; cbn; lia|]. split.
  { exists ([0; 1], 10), ([0; 0], 9). split; [cbn; tauto|]. split.
    - intros r Hr. cbn in Hr. destruct Hr as [<-|[<-|[<-|[<-|[]]]]]; cbn; lra.
    - split; [cbn; tauto|]. split; [lra|]. cbn [snd]. split; [rewrite Rabs_left by lra; lra|].
      intros r Hr N. cbn in Hr. destruct Hr as [<-|[<-|[<-|[<-|[]]]]]; cbn [snd] in *; try lra; rewrite Rabs_left by lra; lra. }
  split; [|apply (IZR_lt 1); reflexivity].
  assert (T : forall i, (0 <= i < 2)%Z -> i = 0%Z \/ i = 1%Z) by (intros; lia).
  split; [cbn; lia|]. split; [cbn; lia|]. split; intros i j Hi Hj; destruct (T i Hi) as [-> | ->], (T j Hj) as [-> | ->]; cbn; try lra; intros; lia.
Qed.
