(** C57, C58, C59, C74: iterative_zoom, iterative_zoom_1d *)
From Coq Require Import ZArith Lia List Reals Lra Bool.
From Coquelicot Require Import Complex.
From Verif Require Import Base NDim DFT Kernel Num Py M_fast_ffts M_shift M_scale M_zoom M_downsample L_downsample M_convolve M_correlate Arg M_chi2 M_iterzoom Spec Spec5 L_shift L_scale L_zoom P_zoom L_iterzoom L_iterzoom2 L_iterzoom3.
Import ListNotations.
Open Scope R_scope.

Lemma pack_mono rz rc mm mindiff step mid zoom v zf cen off n r : zloop (S n) mm mindiff step mid zoom v zf cen off = Some r ->
  forall fuel, (n < fuel)%nat -> pack rz rc (zloop fuel mm mindiff step mid zoom v zf cen off) = pack rz rc (Some r).
Proof. intros H fuel Hf. f_equal. apply (zloop_mono _ _ _ _ _ _ _ _ _ _ _ H). lia. Qed.
Lemma loop_stops_if_constant mm mindiff step mid zoom v zf cen off fuel : v <> [] -> ~ varied v -> (0 < fuel)%nat ->
  zloop fuel mm mindiff step mid zoom v zf cen off = Some (Raise ValueError).
Proof.
  intros Nv V Hf. destruct fuel as [|fuel]; [lia|].
  destruct (zloop_S mm mindiff step mid zoom fuel v zf cen off Nv) as [[_ E]|[[d [Gd _]]|[d [p [Gd _]]]]]; [exact E| |]; exfalso; apply V;
    destruct Gd as [a [q [Ha [_ [Hq [D0 [Ed _]]]]]]]; exists q, a; (split; [auto|split; [auto|]]); intros Q; rewrite Q, Rminus_diag_eq, Rabs_R0 in Ed by reflexivity; lra.
Qed.

(** *** C57: termination, with an explicit bound on the number of evaluations of the loop condition *)
Theorem C57_iterative_zoom_terminates :
  forall env (image : arr num) ny nx mindiff my mx rz step mm rc (n : nat),
  shape image = [ny; nx] -> 1 < step -> 0 < mindiff -> (0 < my)%Z -> (0 < mx)%Z -> (1 <= n)%nat ->
  PI * sumNR [ny; nx] (fun i => Rabs (nan0 (get image i))) * (IZR (my - 1) + IZR (mx - 1)) <= mindiff * step ^ n ->
  exists r, forall fuel, (n < fuel)%nat -> iterative_zoom env fuel image mindiff [my; mx] rz step mm rc = Some r.
Proof.
  intros env image ny nx md my mx rz step mm rc n Hs Hst Hmd Hmy Hmx Hn HK.
  destruct (Z.le_gt_cases ny 0) as [Ly|Ly]; [|destruct (Z.le_gt_cases nx 0) as [Lx|Lx]].
  - exists (Raise ValueError). intros fuel _. unfold iterative_zoom. rewrite Hs. destruct (Z.leb_spec ny 0); [reflexivity|lia].
  - exists (Raise ValueError). intros fuel _. unfold iterative_zoom. rewrite Hs. destruct (Z.leb_spec nx 0); [|lia]. rewrite orb_true_r. reflexivity.
  - destruct (has_nan [ny; nx] image) eqn:EN.
    { exists (Raise ValueError). intros fuel _. rewrite (iterative_zoom_loop _ _ _ ny nx) by (auto; lia). rewrite EN. reflexivity. }
    assert (E := fun fuel => iterative_zoom_loop env fuel image ny nx md [my; mx] rz step mm rc Hs ltac:(lia) ltac:(lia)). rewrite EN in E.
    assert (Nv : pixel_view ny nx (fun y x => finite image [y; x]) <> []) by (apply map_nonempty, pixels_nonempty; lia).
    destruct (Classical_Prop.classic (varied (pixel_view ny nx (fun y x => finite image [y; x])))) as [V|V].
    + destruct (zloop_terminates mm md step [IZR (ny - 1) / 2; IZR (nx - 1) / 2] (zoom2 env image ny nx [my; mx])
        (PI * mass2 image ny nx * (IZR (my - 1) + IZR (mx - 1))) good2 (fun c zf => zoom2_spread env image ny nx my mx ltac:(lia) ltac:(lia) Hmy Hmx c zf) Hst n
        (pixel_view ny nx (fun y x => finite image [y; x])) 1 None [0; 0] Hn Nv) as [s Hz].
      * intros p Hp. apply (pixel_view_ok image ny nx ltac:(lia) ltac:(lia) p Hp).
      * lra.
      * exact V.
      * rewrite Rmult_1_l. exact HK.
      * exists (zresult rz rc s). intros fuel Hf. rewrite E. rewrite (pack_mono _ _ _ _ _ _ _ _ _ _ _ n _ Hz) by lia. reflexivity.
    + exists (Raise ValueError). intros fuel Hf. rewrite E, loop_stops_if_constant by (auto; lia). reflexivity.
Qed.
Print Assumptions C57_iterative_zoom_terminates.

Theorem C57_iterative_zoom_1d_terminates :
  forall env (data : arr num) len mindiff m rz step mm rc (n : nat),
  shape data = [len] -> 1 < step -> 0 < mindiff -> (1 < m)%Z -> (1 <= n)%nat ->
  PI * sumNR [len] (fun i => Rabs (nan0 (get data i))) * IZR (m - 1) <= mindiff * step ^ n ->
  exists r, forall fuel, (n < fuel)%nat -> iterative_zoom_1d env fuel data mindiff [m] rz step mm rc = Some r.
Proof.
  intros env data len md m rz step mm rc n Hs Hst Hmd Hm Hn HK.
  destruct (Z.le_gt_cases len 0) as [Ly|Ly].
  - exists (Raise ValueError). intros fuel _. unfold iterative_zoom_1d. rewrite Hs. destruct (Z.leb_spec len 0); [reflexivity|lia].
  - destruct (has_nan [len] data) eqn:EN.
    { exists (Raise ValueError). intros fuel _. rewrite (iterative_zoom_1d_loop _ _ _ len) by (auto; lia). rewrite EN. reflexivity. }
    assert (E := fun fuel => iterative_zoom_1d_loop env fuel data len md [m] rz step mm rc Hs ltac:(lia)). rewrite EN in E.
    assert (Nv : pixel_view1 len (fun x => finite data [x]) <> []) by (apply map_nonempty, zrange_nonempty; lia).
    destruct (Classical_Prop.classic (varied (pixel_view1 len (fun x => finite data [x])))) as [V|V].
    + destruct (zloop_terminates mm md step [IZR (len - 1) / 2] (zoom1 env data len [m])
        (PI * mass1 data len * IZR (m - 1)) good1 (fun c zf => zoom1_spread env data len m ltac:(lia) Hm c zf) Hst n
        (pixel_view1 len (fun x => finite data [x])) 1 None [0] Hn Nv) as [s Hz].
      * intros p Hp. apply (pixel_view1_ok data len ltac:(lia) p Hp).
      * lra.
      * exact V.
      * rewrite Rmult_1_l. exact HK.
      * exists (zresult rz rc s). intros fuel Hf. rewrite E. rewrite (pack_mono _ _ _ _ _ _ _ _ _ _ _ n _ Hz) by lia. reflexivity.
    + exists (Raise ValueError). intros fuel Hf. rewrite E, loop_stops_if_constant by (auto; lia). reflexivity.
Qed.
Print Assumptions C57_iterative_zoom_1d_terminates.

(** the bound is always met by some n, so the loop always ends *)
Lemma pow_unbounded step b c : 1 < step -> 0 < c -> exists n : nat, (1 <= n)%nat /\ b <= c * step ^ n.
Proof.
  intros Hs Hc. destruct (Pow_x_infinity step ltac:(rewrite Rabs_right; lra) (b / c)) as [N HN].
  exists (S N). split; [lia|]. specialize (HN (S N) ltac:(lia)). rewrite Rabs_right in HN by (apply Rle_ge, pow_le; lra).
  replace b with (c * (b / c)) by (field; lra). apply Rmult_le_compat_l; lra.
Qed.
Theorem C57_iterative_zoom_always_ends :
  forall env (image : arr num) ny nx mindiff my mx rz step mm rc,
  shape image = [ny; nx] -> 1 < step -> 0 < mindiff -> (0 < my)%Z -> (0 < mx)%Z ->
  exists (n : nat) r, forall fuel, (n < fuel)%nat -> iterative_zoom env fuel image mindiff [my; mx] rz step mm rc = Some r.
Proof.
  intros. destruct (pow_unbounded step (PI * sumNR [ny; nx] (fun i => Rabs (nan0 (get image i))) * (IZR (my - 1) + IZR (mx - 1))) mindiff) as [n [Hn HK]]; auto.
  exists n. apply (C57_iterative_zoom_terminates env image ny nx); auto.
Qed.
Print Assumptions C57_iterative_zoom_always_ends.
Theorem C57_iterative_zoom_1d_always_ends :
  forall env (data : arr num) len mindiff m rz step mm rc,
  shape data = [len] -> 1 < step -> 0 < mindiff -> (1 < m)%Z ->
  exists (n : nat) r, forall fuel, (n < fuel)%nat -> iterative_zoom_1d env fuel data mindiff [m] rz step mm rc = Some r.
Proof.
  intros. destruct (pow_unbounded step (PI * sumNR [len] (fun i => Rabs (nan0 (get data i))) * IZR (m - 1)) mindiff) as [n [Hn HK]]; auto.
  exists n. apply (C57_iterative_zoom_1d_terminates env data len); auto.
Qed.
Print Assumptions C57_iterative_zoom_1d_always_ends.
Example C57_nonvacuous : exists n : nat, let image := mk2 2 2 (fun y x => Fin (IZR (y + x))) in
  shape image = [2; 2]%Z /\ (1 <= n)%nat /\ PI * sumNR [2; 2]%Z (fun i => Rabs (nan0 (get image i))) * (IZR (3 - 1) + IZR (3 - 1)) <= 1 * 2 ^ n.
Proof.
  exists 6%nat. split; [reflexivity|]. split; [lia|]. assert (P := PI_4).
  replace (sumNR [2; 2]%Z _) with 4. 2:{ cbn -[Rabs]. unfold sumNR, sumR, sumG. simpl. rewrite !Rabs_right by lra. ring. }
  simpl. lra.
Qed.

(** for zoomstep = 1 the loop need not end: the extremum sits in the middle of an odd image and zooming by 1 reproduces the image *)
Lemma zoomed_view_self ny nx image y x : (0 < ny)%Z -> (0 < nx)%Z -> (2 * y = ny - 1)%Z -> (2 * x = nx - 1)%Z ->
  zoomed_view ny nx (finite image) ny nx (IZR y) (IZR x) 1 = pixel_view ny nx (fun y x => finite image [y; x]).
Proof.
  intros Hy Hx Ey Ex. unfold zoomed_view, pixel_view. apply map_ext_in. intros [i j] Hij. apply pixels_In in Hij. cbn [fst snd].
  assert (S1 : sample_at (IZR y) 1 ny i = IZR i). { unfold sample_at. replace ny with (2 * y + 1)%Z by lia. rewrite plus_IZR, mult_IZR. field. }
  assert (S2 : sample_at (IZR x) 1 nx j = IZR j). { unfold sample_at. replace nx with (2 * x + 1)%Z by lia. rewrite plus_IZR, mult_IZR. field. }
  rewrite S1, S2. cbv zeta. rewrite (pixel_value image ny nx) by tauto. reflexivity.
Qed.
Theorem C57_zoomstep_one_runs_forever :
  forall env (image : arr num) ny nx mindiff rz mm rc y x d,
  shape image = [ny; nx] -> (forall i, inb [ny; nx] i -> isnan (get image i) = false) ->
  best_pixel mm ny nx (fun y x => nan0 (get image [y; x])) y x -> (2 * y = ny - 1)%Z -> (2 * x = nx - 1)%Z ->
  is_gap mm (pixel_view ny nx (fun y x => nan0 (get image [y; x]))) d -> mindiff < d ->
  forall fuel, iterative_zoom env fuel image mindiff [ny; nx] rz 1 mm rc = None.
Proof.
  intros env image ny nx md rz mm rc y x d Hs Hn Hb Ey Ex Hg Hd fuel.
  assert (Hy : (0 < ny)%Z) by (destruct Hb as [A _]; cbn in A; lia). assert (Hx : (0 < nx)%Z) by (destruct Hb as [_ [A _]]; cbn in A; lia).
  rewrite (iterative_zoom_loop _ _ _ ny nx) by auto. destruct (has_nan [ny; nx] image) eqn:EN.
  { apply existsN_spec in EN. destruct EN as [i [Hi Ei]]. rewrite Hn in Ei by auto. discriminate. }
  change (fun y x => nan0 (get image [y; x])) with (fun y x => finite image [y; x]) in *.
  set (v := pixel_view ny nx (fun y x => finite image [y; x])) in *.
  assert (Nv : v <> []) by (apply map_nonempty, pixels_nonempty; auto).
  assert (L : forall cen off, zloop fuel mm md 1 [IZR (ny - 1) / 2; IZR (nx - 1) / 2] (zoom2 env image ny nx [ny; nx]) v 1 cen off = None);
    [|rewrite L; reflexivity].
  induction fuel as [|fuel IH]; intros cen off; [reflexivity|].
  destruct (zloop_S mm md 1 [IZR (ny - 1) / 2; IZR (nx - 1) / 2] (zoom2 env image ny nx [ny; nx]) fuel v 1 cen off Nv) as [[N _]|[[d' [G' [L' _]]]|[d' [p [G' [L' [F E]]]]]]].
  - exfalso. apply N. destruct Hg as [a [q [Ha [_ [Hq [D0 [Ed _]]]]]]]. exists q, a. split; [auto|]. split; [auto|]. intros Q. rewrite Q, Rminus_diag_eq, Rabs_R0 in Ed by reflexivity. lra.
  - rewrite (gap_unique _ _ _ _ G' Hg) in L'. lra.
  - rewrite E. destruct (first_best_pixel _ _ _ _ _ F) as [y' [x' [B ->]]]. destruct (best_pixel_unique _ _ _ _ _ _ _ _ B Hb) as [-> ->]. cbn [fst].
    rewrite Rmult_1_l, zoom2_view by (auto; lra). rewrite zoomed_view_self by auto. fold v.
    destruct (extremum_first mm v Nv) as [b [Eb _]]. rewrite Eb. destruct (forallb _ _) eqn:AZ; [|apply IH].
    exfalso. apply (allzero_spec mm v b Eb Nv) in AZ. apply AZ. destruct Hg as [a [q [Ha [_ [Hq [D0 [Ed _]]]]]]]. exists q, a. split; [auto|]. split; [auto|].
    intros Q. rewrite Q, Rminus_diag_eq, Rabs_R0 in Ed by reflexivity. lra.
Qed.
Print Assumptions C57_zoomstep_one_runs_forever.
Example C57_forever_nonvacuous : let f := fun y x => if ((y =? 1) && (x =? 1))%Z then 10 else 0 in
  best_pixel MMax 3 3 (fun y x => nan0 (get (mk2 3 3 (fun y x => Fin (f y x))) [y; x])) 1 1 /\
  is_gap MMax (pixel_view 3 3 (fun y x => nan0 (get (mk2 3 3 (fun y x => Fin (f y x))) [y; x]))) 10 /\ (2 * 1 = 3 - 1)%Z.
Proof.
  cbn [mk2 get nan0]. split; [|split; [|lia]].
  - split; [cbn; lia|]. split; [cbn; lia|]. cbn [fst snd sgn]. split; intros i j Hi Hj; simpl Z.eqb; cbn [andb].
    + destruct ((i =? 1) && (j =? 1))%Z; lra.
    + intros L. destruct (Z.eqb_spec i 1), (Z.eqb_spec j 1); cbn [andb]; try lra. lia.
  - unfold is_gap. exists ([1; 1], 10), ([0; 0], 0).
    assert (I : forall r, In r (pixel_view 3 3 (fun y x => if ((y =? 1) && (x =? 1))%Z then 10 else 0)) <-> exists i j, (0 <= i < 3)%Z /\ (0 <= j < 3)%Z /\ r = ([IZR i; IZR j], if ((i =? 1) && (j =? 1))%Z then 10 else 0)).
    { intros r. unfold pixel_view. rewrite in_map_iff. split.
      - intros [[i j] [<- H]]. apply pixels_In in H. exists i, j. tauto.
      - intros [i [j [Hi [Hj ->]]]]. exists (i, j). split; [reflexivity|]. apply pixels_In. auto. }
    split; [apply I; exists 1%Z, 1%Z; repeat split; lia|]. split.
    { intros r Hr. apply I in Hr. destruct Hr as [i [j [_ [_ ->]]]]. cbn [snd sgn]. destruct (_ && _); lra. }
    split; [apply I; exists 0%Z, 0%Z; repeat split; lia|]. split; [lra|]. split; [cbn [snd]; rewrite Rabs_left; lra|].
    intros r Hr Nr. apply I in Hr. destruct Hr as [i [j [_ [_ ->]]]]. cbn [snd] in *. destruct (_ && _); [lra|]. rewrite Rabs_left; lra.
Qed.
