(** C58, C59, C74: where iterative_zoom ends up *)
From Coq Require Import ZArith Lia List Reals Lra Bool.
From Coquelicot Require Import Complex.
From Verif Require Import Base NDim DFT Kernel Num Py M_fast_ffts M_shift M_scale M_zoom M_downsample L_downsample M_convolve M_correlate Arg M_chi2 M_iterzoom Spec Spec5 L_shift L_scale L_zoom P_zoom L_iterzoom L_iterzoom2 L_iterzoom3 P_iterzoom.
Import ListNotations.
Open Scope R_scope.

Lemma pack_ok rz rc o out : pack rz rc o = Some (Ok out) -> exists s, o = Some (Ok s) /\ zresult rz rc s = Ok out.
Proof. unfold pack. destruct o as [[s|e]|]; intros H; try discriminate. exists s. split; [reflexivity|]. congruence. Qed.
Lemma geo_bound step (k : nat) : 1 < step -> (1 - / step ^ (k - 1)) / (step - 1) <= / (step - 1).
Proof.
  intros H. unfold Rdiv. rewrite <- (Rmult_1_l (/ (step - 1))) at 2. apply Rmult_le_compat_r; [left; apply Rinv_0_lt_compat; lra|].
  assert (0 < / step ^ (k - 1)) by (apply Rinv_0_lt_compat, pow_lt; lra). lra.
Qed.

(** *** C58 *)
Theorem C58_iterative_zoom_result :
  forall env fuel (image : arr num) ny nx mindiff my mx rz step mm rc out,
  shape image = [ny; nx] -> 1 < step -> (0 < my)%Z -> (0 < mx)%Z ->
  iterative_zoom env fuel image mindiff [my; mx] rz step mm rc = Some (Ok out) ->
  let f := fun y x => nan0 (get image [y; x]) in
  (* nothing to zoom: the smallest non-zero difference from the extreme value is already small enough *)
  (exists d, is_gap mm (pixel_view ny nx f) d /\ d <= mindiff /\ rc = false /\
     out = if rz then ZZoomed (pixel_view ny nx f) 1 [0; 0] else ZResult [0; 0]) \/
  (* k zoom steps ending at (cy,cx), near the first extremal pixel (y,x) *)
  (exists d y x (k : nat) cy cx, is_gap mm (pixel_view ny nx f) d /\ mindiff < d /\ best_pixel mm ny nx f y x /\ (1 <= k)%nat /\
     Rabs (cy - IZR y) <= IZR (my - 1) / 2 * ((1 - / step ^ (k - 1)) / (step - 1)) /\
     Rabs (cx - IZR x) <= IZR (mx - 1) / 2 * ((1 - / step ^ (k - 1)) / (step - 1)) /\
     let img := zoomed_view ny nx (get (amap nan0 image)) my mx cy cx (step ^ k) in
     stops mm mindiff img /\
     let r := if rc then [cy; cx] else [cy - IZR (ny - 1) / 2; cx - IZR (nx - 1) / 2] in
     out = if rz then ZZoomed img (step ^ k) r else ZResult r).
Proof.
  intros env fuel image ny nx md my mx rz step mm rc out Hs Hst Hmy Hmx H f.
  destruct (Z.le_gt_cases ny 0) as [Ly|Ly]; [|destruct (Z.le_gt_cases nx 0) as [Lx|Lx]].
  1:{ unfold iterative_zoom in H. rewrite Hs in H. destruct (Z.leb_spec ny 0); [discriminate|lia]. }
  1:{ unfold iterative_zoom in H. rewrite Hs in H. destruct (Z.leb_spec nx 0); [|lia]. rewrite orb_true_r in H. discriminate. }
  rewrite (iterative_zoom_loop _ _ _ ny nx) in H by (auto; lia). destruct (has_nan _ _); [discriminate|].
  apply pack_ok in H. destruct H as [s [Hl Hr]].
  assert (Nv : pixel_view ny nx (fun y x => finite image [y; x]) <> []) by (apply map_nonempty, pixels_nonempty; lia).
  assert (R := zloop_result mm md step [IZR (ny - 1) / 2; IZR (nx - 1) / 2] (zoom2 env image ny nx [my; mx]) [IZR (my - 1) / 2; IZR (mx - 1) / 2]
    (pixel_view ny nx (fun y x => finite image [y; x])) (trig_interpR [ny; nx] (finite image)) [0; 0] Hst).
  specialize (R ltac:(intros [|[|[|d]]]; cbn [nth]; try lra; apply Rmult_le_pos; try lra; apply (IZR_le 0); lia) Nv good2).
  specialize (R ltac:(intros p Hp; apply (pixel_view_ok image ny nx ltac:(lia) ltac:(lia) p Hp))).
  specialize (R ltac:(intros c zf v' G P Z'; exact (zoom2_samples env image ny nx my mx ltac:(lia) ltac:(lia) Hmy Hmx c zf v' G P Z')) fuel s Hl).
  destruct s as [[[v' zf'] cen'] off']. cbn [zresult] in Hr. destruct R as [[d [G [L [-> [-> [-> ->]]]]]]|[d [p0 [k [c [G [L [-> [A S]]]]]]]]].
  - left. exists d. split; [exact G|]. split; [exact L|]. destruct rc; [discriminate|]. cbn [bind] in Hr. split; [reflexivity|]. destruct rz; injection Hr as <-; reflexivity.
  - right. destruct A as [K1 [Ez [F0 [[cy [cx ->]] [Zm [Eo [_ Cl]]]]]]]. destruct (first_best_pixel _ _ _ _ _ F0) as [y [x [B ->]]].
    exists d, y, x, k, cy, cx. split; [exact G|]. split; [exact L|]. split; [exact B|]. split; [exact K1|].
    split; [exact (Cl 0%nat)|]. split; [exact (Cl 1%nat)|].
    rewrite zoom2_view in Zm by (auto; try lia; rewrite Ez; apply Rgt_not_eq, pow_lt; lra).
    injection Zm as <-. rewrite Ez in *. split; [exact S|]. rewrite Eo in Hr. clear - Hr. destruct rc; cbn [bind] in Hr; injection Hr as <-; destruct rz; reflexivity.
Qed.
Print Assumptions C58_iterative_zoom_result.

(** in particular the answer is within (zoomshape-1)/2/(zoomstep-1) pixels of the extremal pixel *)
Theorem C58_near_best_pixel :
  forall env fuel (image : arr num) ny nx mindiff my mx step mm cy cx,
  shape image = [ny; nx] -> 1 < step -> (0 < my)%Z -> (0 < mx)%Z ->
  iterative_zoom env fuel image mindiff [my; mx] false step mm true = Some (Ok (ZResult [cy; cx])) ->
  exists y x, best_pixel mm ny nx (fun y x => nan0 (get image [y; x])) y x /\
    Rabs (cy - IZR y) <= IZR (my - 1) / 2 / (step - 1) /\ Rabs (cx - IZR x) <= IZR (mx - 1) / 2 / (step - 1).
Proof.
  intros env fuel image ny nx md my mx step mm cy cx Hs Hst Hmy Hmx H.
  destruct (C58_iterative_zoom_result env fuel image ny nx md my mx false step mm true _ Hs Hst Hmy Hmx H) as [[d [_ [_ [Q _]]]]|[d [y [x [k [cy' [cx' [_ [_ [B [_ [C1 [C2 [_ E]]]]]]]]]]]]]]; [discriminate|].
  cbn in E. injection E as -> ->. exists y, x. split; [exact B|]. assert (G := geo_bound step k Hst).
  assert (P1 : 0 <= IZR (my - 1) / 2) by (apply Rmult_le_pos; [apply (IZR_le 0); lia|lra]).
  assert (P2 : 0 <= IZR (mx - 1) / 2) by (apply Rmult_le_pos; [apply (IZR_le 0); lia|lra]).
  split; [eapply Rle_trans; [exact C1|]|eapply Rle_trans; [exact C2|]]; unfold Rdiv at 2; apply Rmult_le_compat_l; auto.
Qed.
Print Assumptions C58_near_best_pixel.

Theorem C58_iterative_zoom_1d_result :
  forall env fuel (data : arr num) n mindiff m rz step mm rc out,
  shape data = [n] -> 1 < step -> (1 < m)%Z ->
  iterative_zoom_1d env fuel data mindiff [m] rz step mm rc = Some (Ok out) ->
  let f := fun x => nan0 (get data [x]) in
  (exists d, is_gap mm (pixel_view1 n f) d /\ d <= mindiff /\ rc = false /\
     out = if rz then ZZoomed (pixel_view1 n f) 1 [0] else ZResult [0]) \/
  (exists d x (k : nat) c, is_gap mm (pixel_view1 n f) d /\ mindiff < d /\ best_index mm n f x /\ (1 <= k)%nat /\
     Rabs (c - IZR x) <= IZR (m - 1) / 2 * ((1 - / step ^ (k - 1)) / (step - 1)) /\
     let img := zoomed_view1 n (get (amap nan0 data)) m c (step ^ k) in
     stops mm mindiff img /\
     let r := if rc then [c] else [c - IZR (n - 1) / 2] in
     out = if rz then ZZoomed img (step ^ k) r else ZResult r).
Proof.
  intros env fuel data n md m rz step mm rc out Hs Hst Hm H f.
  destruct (Z.le_gt_cases n 0) as [Ly|Ly].
  1:{ unfold iterative_zoom_1d in H. rewrite Hs in H. destruct (Z.leb_spec n 0); [discriminate|lia]. }
  rewrite (iterative_zoom_1d_loop _ _ _ n) in H by (auto; lia). destruct (has_nan _ _); [discriminate|].
  apply pack_ok in H. destruct H as [s [Hl Hr]].
  assert (Nv : pixel_view1 n (fun x => finite data [x]) <> []) by (apply map_nonempty, zrange_nonempty; lia).
  assert (R := zloop_result mm md step [IZR (n - 1) / 2] (zoom1 env data n [m]) [IZR (m - 1) / 2]
    (pixel_view1 n (fun x => finite data [x])) (trig_interpR [n] (finite data)) [0] Hst).
  specialize (R ltac:(intros [|[|d]]; cbn [nth]; try lra; apply Rmult_le_pos; try lra; apply (IZR_le 0); lia) Nv good1).
  specialize (R ltac:(intros p Hp; apply (pixel_view1_ok data n ltac:(lia) p Hp))).
  specialize (R ltac:(intros c zf v' G P Z'; exact (zoom1_samples env data n m ltac:(lia) Hm c zf v' G P Z')) fuel s Hl).
  destruct s as [[[v' zf'] cen'] off']. cbn [zresult] in Hr. destruct R as [[d [G [L [-> [-> [-> ->]]]]]]|[d [p0 [k [c [G [L [-> [A S]]]]]]]]].
  - left. exists d. split; [exact G|]. split; [exact L|]. destruct rc; [discriminate|]. cbn [bind] in Hr. split; [reflexivity|]. destruct rz; injection Hr as <-; reflexivity.
  - right. destruct A as [K1 [Ez [F0 [[c1 ->] [Zm [Eo [_ Cl]]]]]]]. destruct (first_best_index _ _ _ _ F0) as [x [B ->]].
    exists d, x, k, c1. split; [exact G|]. split; [exact L|]. split; [exact B|]. split; [exact K1|].
    split; [exact (Cl 0%nat)|].
    rewrite zoom1_view in Zm by (auto; try lia; rewrite Ez; apply Rgt_not_eq, pow_lt; lra).
    injection Zm as <-. rewrite Ez in *. split; [exact S|]. rewrite Eo in Hr. clear - Hr. destruct rc; cbn [bind] in Hr; injection Hr as <-; destruct rz; reflexivity.
Qed.
Print Assumptions C58_iterative_zoom_1d_result.

(** the whole path of centres: each next centre is the first best sample of the previous zoomed image, and zooming goes on
    exactly until the stopping rule holds.  [c i] is the (i+1)-th centre. *)
Theorem C58_iterative_zoom_path :
  forall env fuel (image : arr num) ny nx mindiff my mx step mm cy cx,
  shape image = [ny; nx] -> 1 < step -> (0 < my)%Z -> (0 < mx)%Z ->
  iterative_zoom env fuel image mindiff [my; mx] false step mm true = Some (Ok (ZResult [cy; cx])) ->
  let view_around := fun (c : R * R) (i : nat) => zoomed_view ny nx (get (amap nan0 image)) my mx (fst c) (snd c) (step ^ i) in
  exists (k : nat) (c : nat -> R * R) (y x : Z), c k = (cy, cx) /\
    best_pixel mm ny nx (fun y x => nan0 (get image [y; x])) y x /\ c O = (IZR y, IZR x) /\
    (forall i, (i < k)%nat -> ~ stops mm mindiff (view_around (c i) (S i)) /\
        exists val, first_best mm (view_around (c i) (S i)) ([fst (c (S i)); snd (c (S i))], val)) /\
    stops mm mindiff (view_around (c k) (S k)).
Proof.
  intros env fuel image ny nx md my mx step mm cy cx Hs Hst Hmy Hmx H va.
  destruct (Z.le_gt_cases ny 0) as [Ly|Ly]; [|destruct (Z.le_gt_cases nx 0) as [Lx|Lx]].
  1:{ unfold iterative_zoom in H. rewrite Hs in H. destruct (Z.leb_spec ny 0); [discriminate|lia]. }
  1:{ unfold iterative_zoom in H. rewrite Hs in H. destruct (Z.leb_spec nx 0); [|lia]. rewrite orb_true_r in H. discriminate. }
  rewrite (iterative_zoom_loop _ _ _ ny nx) in H by (auto; lia). destruct (has_nan _ _); [discriminate|].
  apply pack_ok in H. destruct H as [s [Hl Hr]].
  assert (Nv : pixel_view ny nx (fun y x => finite image [y; x]) <> []) by (apply map_nonempty, pixels_nonempty; lia).
  assert (R := zloop_trace mm md step [IZR (ny - 1) / 2; IZR (nx - 1) / 2] (zoom2 env image ny nx [my; mx]) good2 Hst
    ltac:(intros c zf v' G P Z'; destruct (zoom2_samples env image ny nx my mx ltac:(lia) ltac:(lia) Hmy Hmx c zf v' G P Z') as [A B]; split; [exact A|intros p Hp; apply (B p Hp)])
    fuel _ 1 None [0; 0] s Nv ltac:(intros p Hp; apply (pixel_view_ok image ny nx ltac:(lia) ltac:(lia) p Hp)) ltac:(lra) Hl).
  destruct s as [[[v' zf'] cen'] off']. cbn [zresult] in Hr. destruct R as [[Es _]|[k [p [w [K1 [W0 [Wk [Ez [Hi [St [Ec Eo]]]]]]]]]]].
  - injection Es as -> -> -> ->. discriminate.
  - rewrite Ec in Hr. cbn [bind] in Hr. injection Hr as Hr.
    assert (Gd : forall i, (i < k)%nat -> good2 (fst (p i))).
    { induction i as [|i IHi]; intros Hk.
      - destruct (Hi O Hk) as [_ [F _]]. rewrite W0 in F. apply (pixel_view_ok image ny nx ltac:(lia) ltac:(lia)). apply (first_best_In _ _ _ F).
      - destruct (Hi (S i) Hk) as [_ [F _]]. destruct (Hi i ltac:(lia)) as [_ [_ Zm]].
        apply (zoom2_samples env image ny nx my mx ltac:(lia) ltac:(lia) Hmy Hmx) in Zm; [|apply IHi; lia|rewrite Rmult_1_l; apply pow_lt; lra].
        apply Zm. apply (first_best_In _ _ _ F). }
    assert (Vw : forall i, (i < k)%nat -> w (S i) = va (nth 0 (fst (p i)) 0, nth 1 (fst (p i)) 0) (S i)).
    { intros i Hk. destruct (Hi i Hk) as [_ [_ Zm]]. destruct (Gd i Hk) as [a [b E]]. rewrite E in Zm |- *.
      rewrite Rmult_1_l, zoom2_view in Zm by (auto; try lia; apply Rgt_not_eq, pow_lt; lra). injection Zm as <-. reflexivity. }
    destruct (Hi O ltac:(lia)) as [_ [F _]]. rewrite W0 in F. destruct (first_best_pixel _ _ _ _ _ F) as [y [x [B Ep]]].
    exists (k - 1)%nat, (fun i => (nth 0 (fst (p i)) 0, nth 1 (fst (p i)) 0)), y, x.
    split; [rewrite Hr; reflexivity|]. split; [exact B|]. split; [rewrite Ep; reflexivity|]. split.
    + intros i Hk. rewrite <- Vw by lia. destruct (Hi (S i) ltac:(lia)) as [NS [Fb _]]. split; [exact NS|]. exists (snd (p (S i))).
      destruct (Gd (S i) ltac:(lia)) as [a [b E]]. rewrite E. cbn [nth fst snd]. rewrite <- E, <- surjective_pairing. exact Fb.
    + rewrite <- Vw by lia. replace (S (k - 1)) with k by lia. rewrite Wk. exact St.
Qed.
Print Assumptions C58_iterative_zoom_path.

(** *** C59: edge behaviour *)
Lemma pixel_view_varied ny nx f : varied (pixel_view ny nx f) -> exists y x y' x', (0 <= y < ny)%Z /\ (0 <= x < nx)%Z /\ (0 <= y' < ny)%Z /\ (0 <= x' < nx)%Z /\ f y x <> f y' x'.
Proof.
  intros [p [q [Hp [Hq N]]]]. apply in_map_iff in Hp. destruct Hp as [[y x] [<- Hp]]. apply in_map_iff in Hq. destruct Hq as [[y' x'] [<- Hq]].
  apply pixels_In in Hp. apply pixels_In in Hq. exists y, x, y', x'. cbn [fst snd] in N. tauto.
Qed.
Theorem C59_constant_image_raises :
  forall env fuel (image : arr num) ny nx mindiff zoomshape rz step mm rc c,
  shape image = [ny; nx] -> (forall i, inb [ny; nx] i -> get image i = Fin c) -> (0 < fuel)%nat ->
  iterative_zoom env fuel image mindiff zoomshape rz step mm rc = Some (Raise ValueError).
Proof.
  intros env fuel image ny nx md zs rz step mm rc c Hs Hc Hf.
  destruct (Z.le_gt_cases ny 0) as [Ly|Ly]; [|destruct (Z.le_gt_cases nx 0) as [Lx|Lx]].
  1:{ unfold iterative_zoom. rewrite Hs. destruct (Z.leb_spec ny 0); [reflexivity|lia]. }
  1:{ unfold iterative_zoom. rewrite Hs. destruct (Z.leb_spec nx 0); [|lia]. rewrite orb_true_r. reflexivity. }
  rewrite (iterative_zoom_loop _ _ _ ny nx) by (auto; lia). destruct (has_nan _ _); [reflexivity|]. rewrite loop_stops_if_constant; [reflexivity| | |lia].
  - apply map_nonempty, pixels_nonempty; lia.
  - intros V. apply pixel_view_varied in V. destruct V as [y [x [y' [x' [Hy [Hx [Hy' [Hx' N]]]]]]]]. apply N. unfold finite. rewrite !Hc by (apply inb2_intro; auto). reflexivity.
Qed.
Print Assumptions C59_constant_image_raises.
Theorem C59_nan_raises :
  forall env fuel (image : arr num) ny nx mindiff zoomshape rz step mm rc y x,
  shape image = [ny; nx] -> (0 <= y < ny)%Z -> (0 <= x < nx)%Z -> get image [y; x] = NaN ->
  iterative_zoom env fuel image mindiff zoomshape rz step mm rc = Some (Raise ValueError).
Proof.
  intros env fuel image ny nx md zs rz step mm rc y x Hs Hy Hx Hn. rewrite (iterative_zoom_loop _ _ _ ny nx) by (auto; lia).
  assert (E : has_nan [ny; nx] image = true) by (apply existsN_spec; exists [y; x]; split; [apply inb2_intro; auto|rewrite Hn; reflexivity]). rewrite E. reflexivity.
Qed.
Print Assumptions C59_nan_raises.
(** the smallest difference is at most mindiff: no zoom, and the position of the extremum is lost *)
Theorem C59_small_differences :
  forall env fuel (image : arr num) ny nx mindiff zoomshape rz step mm rc d,
  shape image = [ny; nx] -> (0 < ny)%Z -> (0 < nx)%Z -> (forall i, inb [ny; nx] i -> isnan (get image i) = false) ->
  is_gap mm (pixel_view ny nx (fun y x => nan0 (get image [y; x]))) d -> d <= mindiff -> (0 < fuel)%nat ->
  iterative_zoom env fuel image mindiff zoomshape rz step mm rc =
  Some (if rc then Raise UnboundLocalError
        else Ok (if rz then ZZoomed (pixel_view ny nx (fun y x => nan0 (get image [y; x]))) 1 [0; 0] else ZResult [0; 0])).
Proof.
  intros env fuel image ny nx md zs rz step mm rc d Hs Hy Hx Hn Hg Hd Hf. rewrite (iterative_zoom_loop _ _ _ ny nx) by (auto; lia).
  destruct (has_nan [ny; nx] image) eqn:EN.
  { apply existsN_spec in EN. destruct EN as [i [Hi Ei]]. rewrite Hn in Ei by auto. discriminate. }
  change (fun y x => nan0 (get image [y; x])) with (fun y x => finite image [y; x]) in *. set (v := pixel_view ny nx (fun y x => finite image [y; x])) in *.
  assert (Nv : v <> []) by (apply map_nonempty, pixels_nonempty; auto). destruct fuel as [|fuel]; [lia|].
  destruct (zloop_S mm md step [IZR (ny - 1) / 2; IZR (nx - 1) / 2] (zoom2 env image ny nx zs) fuel v 1 None [0; 0] Nv) as [[N _]|[[d' [G' [L' E]]]|[d' [p [G' [L' _]]]]]].
  - exfalso. apply N. destruct Hg as [a [q [Ha [_ [Hq [D0 [Ed _]]]]]]]. exists q, a. split; [auto|]. split; [auto|]. intros Q. rewrite Q, Rminus_diag_eq, Rabs_R0 in Ed by reflexivity. lra.
  - rewrite E. cbn [pack]. destruct rc; [reflexivity|]. destruct rz; reflexivity.
  - rewrite (gap_unique _ _ _ _ G' Hg) in L'. lra.
Qed.
Print Assumptions C59_small_differences.

(** so "returns the position of the minimum" fails even for a clean dark spot: depth 1, mindiff = 1 (the default) *)
Definition spot (y x : Z) : R := if ((y =? 0) && (x =? 0))%Z then -1 else 0.
Lemma spot_view r : In r (pixel_view 5 5 spot) <-> exists i j, (0 <= i < 5)%Z /\ (0 <= j < 5)%Z /\ r = ([IZR i; IZR j], spot i j).
Proof.
  unfold pixel_view. rewrite in_map_iff. split.
  - intros [[i j] [<- H]]. apply pixels_In in H. exists i, j. tauto.
  - intros [i [j [Hi [Hj ->]]]]. exists (i, j). split; [reflexivity|]. apply pixels_In. auto.
Qed.
Lemma spot_gap : is_gap MMin (pixel_view 5 5 spot) 1.
Proof.
  exists ([0; 0], -1), ([0; 1], 0). split; [apply spot_view; exists 0%Z, 0%Z; repeat split; lia|]. split.
  { intros r Hr. apply spot_view in Hr. destruct Hr as [i [j [_ [_ ->]]]]. cbn [snd sgn]. unfold spot. destruct (_ && _); lra. }
  split; [apply spot_view; exists 0%Z, 1%Z; repeat split; lia|]. split; [lra|]. split; [cbn [snd]; rewrite Rabs_right; lra|].
  intros r Hr Nr. apply spot_view in Hr. destruct Hr as [i [j [_ [_ ->]]]]. unfold spot in *. cbn [snd] in *. destruct (_ && _); [lra|]. rewrite Rabs_right; lra.
Qed.
Theorem C59_minimum_position_refuted :
  let image := mk2 5 5 (fun y x => Fin (spot y x)) in
  best_pixel MMin 5 5 spot 0 0 /\
  forall env fuel zoomshape step, (0 < fuel)%nat ->
    iterative_zoom env fuel image 1 zoomshape false step MMin false = Some (Ok (ZResult [0; 0])) /\
    iterative_zoom env fuel image 1 zoomshape false step MMin true = Some (Raise UnboundLocalError) /\
    (* the offset of the minimum from the centre (2,2) is (-2,-2) *)
    IZR 0 - IZR (5 - 1) / 2 = -2.
Proof.
  intros image. split.
  - split; [cbn; lia|]. split; [cbn; lia|]. cbn [fst snd sgn]. unfold spot. split; intros i j Hi Hj; simpl; [destruct (_ && _); lra|lia].
  - intros env fuel zs step Hf.
    assert (NN : forall i, inb [5; 5]%Z i -> isnan (get image i) = false) by (intros [|a [|b [|c l]]]; cbn [inb]; intros H; try tauto; reflexivity).
    split; [|split; [|simpl; lra]].
    + rewrite (C59_small_differences env fuel image 5 5 1 zs false step MMin false 1); auto; try lia; try lra; try exact spot_gap.
    + rewrite (C59_small_differences env fuel image 5 5 1 zs false step MMin true 1); auto; try lia; try lra; try exact spot_gap.
Qed.
Print Assumptions C59_minimum_position_refuted.

(** *** C74: with an odd zoomshape the interpolated value at the returned centre is at least as good as every pixel *)
Theorem C74_odd_zoomshape_never_worse :
  forall env fuel (image : arr num) ny nx mindiff my mx step mm cy cx,
  shape image = [ny; nx] -> 1 < step -> (0 < my)%Z -> (0 < mx)%Z -> Z.odd my = true -> Z.odd mx = true ->
  iterative_zoom env fuel image mindiff [my; mx] false step mm true = Some (Ok (ZResult [cy; cx])) ->
  forall y x, (0 <= y < ny)%Z -> (0 <= x < nx)%Z ->
    let v := trig_interpR [ny; nx] (get (amap nan0 image)) [cy; cx] in
    match mm with MMin => v <= nan0 (get image [y; x]) | MMax => nan0 (get image [y; x]) <= v end.
Proof.
  intros env fuel image ny nx md my mx step mm cy cx Hs Hst Hmy Hmx Oy Ox H y x Hy Hx v.
  rewrite (iterative_zoom_loop _ _ _ ny nx) in H by (auto; lia). destruct (has_nan _ _); [discriminate|].
  apply pack_ok in H. destruct H as [s [Hl Hr]].
  set (v0 := pixel_view ny nx (fun y x => finite image [y; x])) in *.
  assert (Nv : v0 <> []) by (apply map_nonempty, pixels_nonempty; lia).
  set (mid := [IZR (ny - 1) / 2; IZR (nx - 1) / 2]) in *. set (zm := zoom2 env image ny nx [my; mx]) in *. set (h := [IZR (my - 1) / 2; IZR (mx - 1) / 2]).
  set (F := trig_interpR [ny; nx] (finite image)).
  assert (Hh : forall d, 0 <= nth d h 0) by (intros [|[|[|d]]]; unfold h; cbn [nth]; try lra; apply Rmult_le_pos; try lra; apply (IZR_le 0); lia).
  assert (Zok : forall c zf v', good2 c -> 0 < zf -> zm c zf = Ok v' -> v' <> [] /\ forall p, In p v' -> good2 (fst p) /\ close h (/ zf) (fst p) c /\ snd p = F (fst p))
    by (intros c zf v' G P Z'; exact (zoom2_samples env image ny nx my mx ltac:(lia) ltac:(lia) Hmy Hmx c zf v' G P Z')).
  assert (Zce : forall c zf v', good2 c -> 0 < zf -> zm c zf = Ok v' -> exists p, In p v' /\ fst p = c)
    by (intros c zf v' G P Z'; exact (zoom2_centre env image ny nx my mx ltac:(lia) ltac:(lia) Hmy Hmx c zf v' Oy Ox G P Z')).
  assert (V : forall p0 c', first_best mm v0 p0 -> snd (fst s) = Some c' -> sgn mm * F c' <= sgn mm * snd p0).
  { intros p0 c' F0 Ec. destruct fuel as [|fuel]; [discriminate|].
    destruct (zloop_S mm md step mid zm fuel v0 1 None [0; 0] Nv) as [[_ E]|[[d [Gd [Ld E]]]|[d [p [Gd [Ld [Fb E]]]]]]]; rewrite E in Hl.
    - discriminate.
    - injection Hl as <-. discriminate.
    - destruct (zm (fst p) (1 * step)) as [v'|] eqn:Zv; [|discriminate].
      assert (Gp : good2 (fst p)) by (apply (pixel_view_ok image ny nx ltac:(lia) ltac:(lia)), (first_best_In _ _ _ Fb)).
      assert (A : after mm step mid zm h v0 good2 1 p v' (1 * step) (fst p) (zipw Rminus (fst p) mid)).
      { split; [lia|]. split; [simpl; ring|]. split; [exact Fb|]. split; [exact Gp|]. split; [exact Zv|]. split; [reflexivity|].
        simpl. apply close_refl; auto. rewrite Rinv_1. unfold Rdiv. rewrite Rminus_diag_eq by reflexivity. lra. }
      assert (Vp : F (fst p) = snd p) by (symmetry; apply (pixel_view_ok image ny nx ltac:(lia) ltac:(lia)), (first_best_In _ _ _ Fb)).
      assert (Epp : sgn mm * snd p = sgn mm * snd p0).
      { destruct (first_best_In _ _ _ Fb) as [I1 M1]. destruct (first_best_In _ _ _ F0) as [I2 M2]. apply Rle_antisym; auto. }
      assert (Nv' : v' <> []) by (apply (Zok (fst p) (1 * step) v' Gp ltac:(lra) Zv)).
      destruct (extremum_first mm v' Nv') as [b [Eb _]]. rewrite Eb in Hl. destruct (forallb _ _) eqn:AZ.
      + injection Hl as <-. cbn [fst snd] in Ec. injection Ec as <-. rewrite Vp. lra.
      + rewrite <- Epp. assert (Q := zloop_value mm md step mid zm h v0 F Hst good2 Zok Zce fuel 1 p v' (1 * step) (fst p) (zipw Rminus (fst p) mid) s A ltac:(rewrite Vp; lra) Hl c' Ec). exact Q. }
  destruct (extremum_first mm v0 Nv) as [p0 [_ F0]]. destruct s as [[[v' zf'] [c'|]] off']; [|discriminate]. cbn [zresult bind] in Hr. injection Hr as ->.
  specialize (V p0 [cy; cx] F0 eq_refl). destruct (first_best_In _ _ _ F0) as [_ M].
  specialize (M ([IZR y; IZR x], finite image [y; x])). cbn [snd] in M.
  assert (I : In ([IZR y; IZR x], finite image [y; x]) v0) by (apply (in_map (fun p : Z * Z => ([IZR (fst p); IZR (snd p)], finite image [fst p; snd p])) (pixels ny nx) (y, x)); apply pixels_In; auto).
  specialize (M I). change (F [cy; cx]) with v in V. unfold finite in M. destruct mm; cbn [sgn] in *; lra.
Qed.
Print Assumptions C74_odd_zoomshape_never_worse.
