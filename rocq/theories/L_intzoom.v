(** Lemmas on the zoom loop for integer images *)
From Coq Require Import ZArith Lia List Reals Lra Bool.
From Coquelicot Require Import Complex.
From Verif Require Import Base NDim DFT Kernel Num Py M_fast_ffts M_shift M_scale M_zoom M_downsample L_downsample M_convolve M_correlate Arg M_chi2 M_intdtype
  M_iterzoom M_intzoom Spec Spec2 Spec3 Spec5 Sum2 L_iterzoom L_iterzoom3 P_iterzoom P_iterzoom2 P_iterzoom5 P_intdtype.
Import ListNotations.
Open Scope R_scope.

Definition zsgn (mm : minmax) : Z := match mm with MMin => 1%Z | MMax => (-1)%Z end.
Lemma int_extreme_ok mm t : forall z, In (int_extreme mm z t) (z :: t) /\ forall q, In q (z :: t) -> (zsgn mm * int_extreme mm z t <= zsgn mm * q)%Z.
Proof.
  unfold int_extreme. induction t as [|a t IH]; intros z; cbn [fold_left].
  - split; [left; reflexivity|]. intros q [<-|[]]. lia.
  - set (y := match mm with MMin => Z.min | MMax => Z.max end z a).
    assert (Y : (y = z \/ y = a) /\ (zsgn mm * y <= zsgn mm * z)%Z /\ (zsgn mm * y <= zsgn mm * a)%Z) by (unfold y, zsgn; destruct mm; lia).
    destruct (IH y) as [I1 I2]. fold y. destruct Y as [Y1 [Y2 Y3]]. split.
    + destruct I1 as [<-|I1]; [destruct Y1 as [->| ->]; [left; reflexivity|right; left; reflexivity]|right; right; exact I1].
    + assert (Q := I2 y (or_introl eq_refl)). intros q [<-|[<-|Hq]]; [lia|lia|]. apply I2. right. exact Hq.
Qed.
Lemma lmin_same l1 l2 : (forall x, In x l1 <-> In x l2) -> lmin l1 = lmin l2.
Proof.
  intros H. destruct l1 as [|a l1], l2 as [|b l2]; [reflexivity| | |].
  - exfalso. apply (proj2 (H b)). left. reflexivity.
  - exfalso. apply (proj1 (H a)). left. reflexivity.
  - destruct (lmin_ok (a :: l1)) as [m [E1 [I1 M1]]]; [discriminate|]. destruct (lmin_ok (b :: l2)) as [n [E2 [I2 M2]]]; [discriminate|].
    rewrite E1, E2. f_equal. apply Rle_antisym; [apply M1, H, I2|apply M2, H, I1].
Qed.
Lemma zsgn_sgn mm z : sgn mm * IZR z = IZR (zsgn mm * z).
Proof. rewrite mult_IZR. destruct mm; unfold sgn, zsgn; reflexivity. Qed.

(** the values of the view are those of the list *)
Definition same_values (v : view) (vals : list Z) : Prop := forall x, In x (map snd v) <-> In x (map IZR vals).
Lemma extreme_value mm v z t best : same_values v (z :: t) -> extremum mm v = Some best -> snd best = IZR (int_extreme mm z t).
Proof.
  intros S E. destruct (int_extreme_ok mm t z) as [I1 I2]. set (m := int_extreme mm z t) in *.
  assert (Nv : v <> []) by (intros ->; discriminate). destruct (extremum_ok mm v Nv) as [p [E' [Hp Mp]]]. rewrite E in E'. injection E' as <-.
  assert (A : In (snd best) (map IZR (z :: t))) by (apply S, in_map, Hp). apply in_map_iff in A. destruct A as [q [Eq Hq]].
  assert (B : In (IZR m) (map snd v)) by (apply S, in_map, I1). apply in_map_iff in B. destruct B as [p [Ep Ip]].
  specialize (Mp p Ip). specialize (I2 q Hq). rewrite Ep, <- Eq, !zsgn_sgn in Mp. apply le_IZR in Mp. rewrite <- Eq. f_equal. destruct mm; unfold zsgn in *; lia.
Qed.
Lemma int_gap_same dt mm v z t best : same_values v (z :: t) -> extremum mm v = Some best -> (0 < bits dt)%Z ->
  (forall q, In q (z :: t) -> fits dt (q - int_extreme mm z t) /\ fits dt (Z.abs (q - int_extreme mm z t))) ->
  int_gap dt mm (z :: t) = smallest_nonzero (snd best) v.
Proof.
  intros S E Hb F. rewrite (extreme_value mm v z t best S E). unfold int_gap, smallest_nonzero. set (m := int_extreme mm z t) in *. apply lmin_same.
  intros x. unfold abs_deltas. rewrite filter_In, in_map_iff. split.
  - intros [d [<- Hd]]. apply filter_In in Hd. destruct Hd as [Hd D0]. apply Z.ltb_lt in D0. apply in_map_iff in Hd. destruct Hd as [q [Eq Hq]].
    destruct (F q Hq) as [F1 F2]. unfold int_delta in Eq. rewrite (wrapZ_fits dt (q - m)), wrapZ_fits in Eq by auto.
    assert (B : In (IZR q) (map snd v)) by (apply S, in_map, Hq). apply in_map_iff in B. destruct B as [p [Ep Ip]].
    split; [|apply nonzero_spec, (IZR_lt 0), D0]. apply in_map_iff. exists p. split; [|exact Ip]. rewrite Ep, <- minus_IZR, <- abs_IZR. f_equal. exact Eq.
  - intros [Hx Nx]. apply nonzero_spec in Nx. apply in_map_iff in Hx. destruct Hx as [p [Ex Ip]].
    assert (B : In (snd p) (map IZR (z :: t))) by (apply S, in_map, Ip). apply in_map_iff in B. destruct B as [q [Eq Hq]].
    destruct (F q Hq) as [F1 F2]. rewrite <- Eq, <- minus_IZR, <- abs_IZR in Ex. exists (Z.abs (q - m)). split; [exact Ex|].
    apply filter_In. split; [|apply Z.ltb_lt, lt_IZR; lra]. apply in_map_iff. exists q. split; [|exact Hq]. unfold int_delta. rewrite (wrapZ_fits dt (q - m)), wrapZ_fits by auto. reflexivity.
Qed.
Lemma zloop_first_same gap fuel mm mindiff step mid zoom v off best : extremum mm v = Some best -> gap = smallest_nonzero (snd best) v ->
  zloop_first gap fuel mm mindiff step mid zoom v off = zloop fuel mm mindiff step mid zoom v 1 None off.
Proof. intros E ->. destruct fuel as [|fuel]; [reflexivity|]. cbn [zloop zloop_first]. rewrite E. reflexivity. Qed.

Lemma shows_same v sh (f : list Z -> Z) : shows v sh (fun i => IZR (f i)) -> same_values v (map f (all_indices sh)).
Proof.
  intros [A B] x. rewrite map_map, !in_map_iff. split.
  - intros [p [<- Hp]]. destruct (A p Hp) as [i [Hi E]]. exists i. split; [auto|]. apply all_indices_In. exact Hi.
  - intros [i [<- Hi]]. apply all_indices_In in Hi. destruct (B i Hi) as [p [Hp E]]. exists p. auto.
Qed.
Lemma vals_cons sh (f : list Z -> Z) : pos_shape sh -> exists z t, map f (all_indices sh) = z :: t.
Proof.
  intros P. assert (I : In (f (zerosl sh)) (map f (all_indices sh))) by (apply in_map, all_indices_In, inb_zeros, P).
  destruct (map f (all_indices sh)) as [|z t]; [destruct I|eauto].
Qed.
(** j is a pixel with the extreme value *)
Definition extreme_at (mm : minmax) (sh : list Z) (f : list Z -> Z) (j : list Z) : Prop :=
  inb sh j /\ forall k, inb sh k -> match mm with MMin => (f j <= f k)%Z | MMax => (f k <= f j)%Z end.
Lemma vals_extreme mm sh f z t : map f (all_indices sh) = z :: t -> exists j, extreme_at mm sh f j /\ int_extreme mm z t = f j.
Proof.
  intros E. destruct (int_extreme_ok mm t z) as [I1 I2]. rewrite <- E in I1, I2. apply in_map_iff in I1. destruct I1 as [j [Ej Hj]]. apply all_indices_In in Hj.
  exists j. split; [|auto]. split; [exact Hj|]. intros k Hk. specialize (I2 (f k) ltac:(apply in_map, all_indices_In, Hk)). rewrite <- Ej in I2. destruct mm; unfold zsgn in I2; lia.
Qed.
Lemma loop_same dt mm sh (f : list Z -> Z) v fuel mindiff step mid zoom off : pos_shape sh -> shows v sh (fun i => IZR (f i)) -> (0 < bits dt)%Z ->
  (forall i j, inb sh i -> extreme_at mm sh f j -> fits dt (f i - f j) /\ fits dt (Z.abs (f i - f j))) ->
  zloop_first (int_gap dt mm (map f (all_indices sh))) fuel mm mindiff step mid zoom v off = zloop fuel mm mindiff step mid zoom v 1 None off.
Proof.
  intros P S Hb F. destruct (vals_cons sh f P) as [z [t E]]. assert (Nv := shows_nonempty _ _ _ S P). destruct (extremum_ok mm v Nv) as [best [Eb _]].
  apply (zloop_first_same _ _ _ _ _ _ _ _ _ best Eb). apply shows_same in S. rewrite E in *. apply int_gap_same; auto.
  intros q Hq. destruct (vals_extreme mm sh f z t E) as [j [Hj ->]]. rewrite <- E in Hq. apply in_map_iff in Hq. destruct Hq as [i [<- Hi]]. apply F; [apply all_indices_In, Hi|exact Hj].
Qed.

Lemma shows_pixel_view ny nx (f : list Z -> R) : shows (pixel_view ny nx (fun y x => f [y; x])) [ny; nx] f.
Proof.
  split.
  - intros p Hp. apply in_map_iff in Hp. destruct Hp as [[y x] [<- Hi]]. apply pixels_In in Hi. exists [y; x]. cbn [inb fst snd]. tauto.
  - intros [|y [|x [|w l]]] Hi; cbn [inb] in Hi; try tauto. exists ([IZR y; IZR x], f [y; x]). split; [|reflexivity].
    apply in_map_iff. exists (y, x). split; [reflexivity|]. apply pixels_In. tauto.
Qed.
Lemma shows_pixel_view1 n (f : list Z -> R) : shows (pixel_view1 n (fun x => f [x])) [n] f.
Proof.
  split.
  - intros p Hp. apply in_map_iff in Hp. destruct Hp as [x [<- Hi]]. apply zrange_In in Hi. exists [x]. cbn [inb fst snd]. tauto.
  - intros [|x [|w l]] Hi; cbn [inb] in Hi; try tauto. exists ([IZR x], f [x]). split; [|reflexivity].
    apply in_map_iff. exists x. split; [reflexivity|]. apply zrange_In. tauto.
Qed.
Lemma as_float_no_nan sh (a : arr Z) : has_nan sh (as_float a) = false.
Proof. destruct (has_nan sh (as_float a)) eqn:E; [|reflexivity]. apply existsN_spec in E. destruct E as [i [_ Ei]]. discriminate. Qed.

(** the four loops *)
Lemma int_loop2 dt env fuel image ny nx mindiff zs rz step mm rc : shape image = [ny; nx] -> (0 < ny)%Z -> (0 < nx)%Z ->
  iterative_zoom_int dt env fuel image mindiff zs rz step mm rc =
  pack rz rc (zloop_first (int_gap dt mm (map (get image) (all_indices [ny; nx]))) fuel mm mindiff step [IZR (ny - 1) / 2; IZR (nx - 1) / 2] (zoom2 env (as_float image) ny nx zs)
                (pixel_view ny nx (fun y x => finite (as_float image) [y; x])) [0; 0]).
Proof. intros Hs Hy Hx. unfold iterative_zoom_int. rewrite Hs. destruct (Z.leb_spec ny 0); [lia|]. destruct (Z.leb_spec nx 0); [lia|]. reflexivity. Qed.
Lemma int_loop_rank dt env fuel image mindiff zs rz step mm rc : length (shape image) <> 2%nat ->
  iterative_zoom_int dt env fuel image mindiff zs rz step mm rc =
  if negb (pos_shapeb (shape image)) then Some (Raise ValueError) else
  pack rz rc (zloop_first (int_gap dt mm (map (get image) (all_indices (shape image)))) fuel mm mindiff step (map (fun n => IZR (n - 1) / 2) (firstn 2 (shape image))) (zoom_other env (as_float image) zs)
    (map (fun i => (map IZR (firstn 2 i), IZR (get image i))) (all_indices (shape image))) (repeat 0 (length (shape image)))).
Proof. intros H. unfold iterative_zoom_int. destruct (shape image) as [|a [|b [|c l]]]; [reflexivity|reflexivity|exfalso; apply H; reflexivity|reflexivity]. Qed.
Lemma int_loop1 dt env fuel data n mindiff zs rz step mm rc : shape data = [n] -> (0 < n)%Z ->
  iterative_zoom_1d_int dt env fuel data mindiff zs rz step mm rc =
  pack rz rc (zloop_first (int_gap dt mm (map (get data) (all_indices [n]))) fuel mm mindiff step [IZR (n - 1) / 2] (zoom1 env (as_float data) n zs)
                (pixel_view1 n (fun x => finite (as_float data) [x])) [0]).
Proof. intros Hs Hn. unfold iterative_zoom_1d_int. rewrite Hs. destruct (Z.leb_spec n 0); [lia|]. reflexivity. Qed.
Lemma int_loop_rank1 dt env fuel data mindiff zs rz step mm rc : length (shape data) <> 1%nat ->
  iterative_zoom_1d_int dt env fuel data mindiff zs rz step mm rc =
  if negb (pos_shapeb (shape data)) then Some (Raise ValueError) else
  pack rz rc (zloop_first (int_gap dt mm (map (get data) (all_indices (shape data)))) fuel mm mindiff step [IZR (prodZ (shape data) - 1) / 2] (zoom_other_1d env (as_float data) zs)
    (flat_view (shape data) (fun i => IZR (get data i))) [0]).
Proof. intros H. unfold iterative_zoom_1d_int. destruct (shape data) as [|a [|b l]]; [reflexivity|exfalso; apply H; reflexivity|reflexivity]. Qed.

(** both functions agree with their float versions as soon as the first gap does *)
Lemma both_same dt mm (image : arr Z) :
  (forall v fuel mindiff step mid zoom off, pos_shape (shape image) -> shows v (shape image) (fun i => IZR (get image i)) ->
    zloop_first (int_gap dt mm (map (get image) (all_indices (shape image)))) fuel mm mindiff step mid zoom v off = zloop fuel mm mindiff step mid zoom v 1 None off) ->
  forall env fuel mindiff zs rz step rc,
  iterative_zoom_int dt env fuel image mindiff zs rz step mm rc = iterative_zoom env fuel (as_float image) mindiff zs rz step mm rc /\
  iterative_zoom_1d_int dt env fuel image mindiff zs rz step mm rc = iterative_zoom_1d env fuel (as_float image) mindiff zs rz step mm rc.
Proof.
  intros H env fuel md zs rz step rc. assert (Sa : shape (as_float image) = shape image) by reflexivity. split.
  - destruct (Nat.eq_dec (length (shape image)) 2) as [E|N].
    + destruct (shape image) as [|ny [|nx [|x l]]] eqn:Es; try discriminate.
      destruct (Z.leb_spec ny 0) as [Ly|Ly]; [|destruct (Z.leb_spec nx 0) as [Lx|Lx]].
      * unfold iterative_zoom_int, iterative_zoom. rewrite Sa, Es. destruct (Z.leb_spec ny 0); [reflexivity|lia].
      * unfold iterative_zoom_int, iterative_zoom. rewrite Sa, Es. destruct (Z.leb_spec nx 0); [rewrite orb_true_r; reflexivity|lia].
      * rewrite (int_loop2 _ _ _ _ ny nx) by auto. rewrite (iterative_zoom_loop _ _ _ ny nx) by auto. rewrite as_float_no_nan. f_equal.
        apply H; [repeat constructor; auto|]. apply (shows_pixel_view ny nx (fun i => IZR (get image i))).
    + rewrite int_loop_rank, zoom_rank by auto. rewrite Sa, as_float_no_nan. destruct (pos_shapeb (shape image)) eqn:P; [|reflexivity]. cbn [negb]. f_equal.
      apply pos_shapeb_spec in P. apply H; [exact P|]. apply (shows_all (shape image) (fun i => IZR (get image i)) (fun i => map IZR (firstn 2 i))).
  - destruct (Nat.eq_dec (length (shape image)) 1) as [E|N].
    + destruct (shape image) as [|n [|x l]] eqn:Es; try discriminate.
      destruct (Z.leb_spec n 0) as [Ly|Ly].
      * unfold iterative_zoom_1d_int, iterative_zoom_1d. rewrite Sa, Es. destruct (Z.leb_spec n 0); [reflexivity|lia].
      * rewrite (int_loop1 _ _ _ _ n) by auto. rewrite (iterative_zoom_1d_loop _ _ _ n) by auto. rewrite as_float_no_nan. f_equal.
        apply H; [repeat constructor; auto|]. apply (shows_pixel_view1 n (fun i => IZR (get image i))).
    + rewrite int_loop_rank1, zoom_rank_1d by auto. rewrite Sa, as_float_no_nan. destruct (pos_shapeb (shape image)) eqn:P; [|reflexivity]. cbn [negb]. f_equal.
      apply pos_shapeb_spec in P. apply H; [exact P|]. apply shows_flat. exact P.
Qed.
