(** Properties C15-C18: zoom1d, zoom_on_pixel, zoomnd *)
From Coq Require Import ZArith Lia List Reals Lra Bool.
From Coquelicot Require Import Complex.
From Verif Require Import Base NDim DFT Kernel Py M_fast_ffts M_shift M_scale M_zoom Spec L_shift L_scale L_zoom.
Import ListNotations.
Open Scope R_scope.

(** [x] (a function of 0 <= j < m) is the uniform grid of m points with spacing 1/u centred on c *)
Definition uniform_grid (c u : R) (m : Z) (x : Z -> R) : Prop :=
  (forall j, (0 <= j < m)%Z -> x j = c + (IZR j - (IZR m - 1) / 2) / u) /\
  (forall j, (0 <= j)%Z -> (j + 1 < m)%Z -> x (j + 1)%Z - x j = 1 / u) /\
  ((0 < m)%Z -> (x 0%Z + x (m - 1)%Z) / 2 = c) /\
  (0 < u -> forall i j, (0 <= i)%Z -> (i < j)%Z -> (j < m)%Z -> x i < x j).

Lemma grid_uniform c u m x : u <> 0 -> (forall j, (0 <= j < m)%Z -> x j = grid_at c u m j) -> uniform_grid c u m x.
Proof.
  intros Hu H. unfold grid_at in H. split; [exact H|]. split; [|split].
  - intros j H1 H2. rewrite !H by lia. rewrite plus_IZR. field. exact Hu.
  - intros Hm. rewrite !H by lia. rewrite minus_IZR. field. exact Hu.
  - intros Hp i j H1 H2 H3. rewrite !H by lia. apply Rplus_lt_compat_l. apply Rmult_lt_compat_r.
    + apply Rinv_0_lt_compat; auto.
    + apply IZR_lt in H2. lra.
Qed.

(** *** C15: output coordinates *)
Theorem C15_zoom1d_coordinates :
  forall env (inp : arr C) n (usfac : R) (outsize : option Z) (offset : R) nt np rreal,
  shape inp = [n] -> (0 < n)%Z -> usfac <> 0 ->
  let m := match outsize with None => n | Some m => m end in (0 <= m)%Z ->
  exists xs r, zoom1d env inp usfac outsize offset nt np true rreal = Ok (Some xs, r) /\ shape xs = [m] /\
    uniform_grid ((IZR n - 1) / 2 + offset) usfac m (g1 xs).
Proof.
  intros env inp n u om off nt np rr Hs Hn Hu m Hm.
  destruct (zoom1d_ok env inp n u om off nt np true rr Hs Hn Hu Hm) as [xs [r [H1 [H2 [H3 H4]]]]].
  exists xs. eexists. split; [exact H1|]. split; [exact H2|]. apply grid_uniform; auto. intros j Hj. apply H4; auto.
Qed.
Print Assumptions C15_zoom1d_coordinates.

Theorem C15_zoomnd_2d_coordinates :
  forall env (inp : arr C) ny nx (offsets : list R) (oy ox : R) (mc : R -> R) (usfac : R) outshape my mx nt np rreal,
  shape inp = [ny; nx] -> (0 < ny)%Z -> (0 < nx)%Z -> usfac <> 0 ->
  match outshape with None => shape inp | Some s => s end = [my; mx] -> (0 < my)%Z -> (0 < mx)%Z ->
  offsets = [oy; ox] \/ (offsets = [] /\ oy = 0 /\ ox = 0) ->
  exists xs r, zoomnd env inp offsets mc usfac outshape nt np rreal true = Ok (Some xs, r) /\
    shape xs = [2%Z; my; mx] /\
    (forall j, (0 <= j < mx)%Z -> uniform_grid (mc (IZR (ny - 1) / 2) + oy) usfac my (fun i => get xs [0%Z; i; j])) /\
    (forall i, (0 <= i < my)%Z -> uniform_grid (mc (IZR (nx - 1) / 2) + ox) usfac mx (fun j => get xs [1%Z; i; j])).
Proof.
  intros env inp ny nx offs oy ox mc u o my mx nt np rr Hs Hy Hx Hu Ho Hmy Hmx Hoff.
  assert (E : zoomnd env inp offs mc u o nt np rr true =
     zoom_on_pixel env inp [mc (IZR (ny - 1) / 2) + oy; mc (IZR (nx - 1) / 2) + ox] u o nt np rr true).
  { unfold zoomnd, ndim. rewrite Hs. destruct Hoff as [->|[-> [-> ->]]]; reflexivity. }
  rewrite E.
  destruct (zoom2_ok env inp ny nx (mc (IZR (ny - 1) / 2) + oy) (mc (IZR (nx - 1) / 2) + ox) u o my mx nt np rr true Hs Hy Hx Hu Ho Hmy Hmx) as [xs [r [H1 [H2 [H3 H4]]]]].
  exists xs. eexists. split; [exact H1|]. split; [exact H2|].
  split; intros; apply grid_uniform; auto; intros; apply H4; auto.
Qed.
Print Assumptions C15_zoomnd_2d_coordinates.

Theorem C15_zoom_on_pixel_2d_coordinates :
  forall env (inp : arr C) ny nx (cy cx : R) (usfac : R) outshape my mx nt np rreal,
  shape inp = [ny; nx] -> (0 < ny)%Z -> (0 < nx)%Z -> usfac <> 0 ->
  match outshape with None => shape inp | Some s => s end = [my; mx] -> (0 < my)%Z -> (0 < mx)%Z ->
  exists xs r, zoom_on_pixel env inp [cy; cx] usfac outshape nt np rreal true = Ok (Some xs, r) /\
    shape xs = [2%Z; my; mx] /\
    (forall j, (0 <= j < mx)%Z -> uniform_grid cy usfac my (fun i => get xs [0%Z; i; j])) /\
    (forall i, (0 <= i < my)%Z -> uniform_grid cx usfac mx (fun j => get xs [1%Z; i; j])).
Proof.
  intros env inp ny nx cy cx u o my mx nt np rr Hs Hy Hx Hu Ho Hmy Hmx.
  destruct (zoom2_ok env inp ny nx cy cx u o my mx nt np rr true Hs Hy Hx Hu Ho Hmy Hmx) as [xs [r [H1 [H2 [H3 H4]]]]].
  exists xs. eexists. split; [exact H1|]. split; [exact H2|].
  split; intros; apply grid_uniform; auto; intros; apply H4; auto.
Qed.
Print Assumptions C15_zoom_on_pixel_2d_coordinates.

Theorem C15_zoom_on_pixel_1d_coordinates :
  forall env (inp : arr C) n (c : R) (usfac : R) outshape m nt np rreal,
  shape inp = [n] -> (0 < n)%Z -> usfac <> 0 ->
  match outshape with None => shape inp | Some s => s end = [m] -> (0 <= m)%Z -> m <> 1%Z ->
  exists xs r, zoom_on_pixel env inp [c] usfac outshape nt np rreal true = Ok (Some xs, r) /\
    shape xs = [1%Z; m] /\ uniform_grid c usfac m (fun i => get xs [0%Z; i]).
Proof.
  intros env inp n c u o m nt np rr Hs Hn Hu Ho Hm Hm1.
  destruct (zoom1_ok env inp n c u o m nt np rr true Hs Hn Hu Ho Hm Hm1) as [xs [r [H1 [H2 [H3 H4]]]]].
  exists xs. eexists. split; [exact H1|]. split; [exact H2|]. apply grid_uniform; auto; intros; apply H4; auto.
Qed.
Print Assumptions C15_zoom_on_pixel_1d_coordinates.

Example C15_nonvacuous : let inp := mk2 4 3 (fun y x => RtoC (IZR (y * x))) in
  shape inp = [4; 3]%Z /\ (5/2) <> 0 /\ match Some [7; 2]%Z with None => shape inp | Some s => s end = [7; 2]%Z.
Proof. repeat split. lra. Qed.

(** *** C16: zoom by 1 is the identity *)
Theorem C16_zoom1d_default_is_identity :
  forall env (inp : arr C) n nt np,
  shape inp = [n] -> (0 < n)%Z ->
  exists xs r, zoom1d env inp 1 None 0 nt np true false = Ok (Some xs, CplxArr r) /\
    aeq r inp /\ shape xs = [n] /\ forall j, (0 <= j < n)%Z -> g1 xs j = IZR j.
Proof.
  intros env inp n nt np Hs Hn.
  destruct (zoom1d_ok env inp n 1 None 0 nt np true false Hs Hn ltac:(lra) ltac:(simpl; lia)) as [xs [r [H1 [H2 [H3 H4]]]]].
  assert (G : forall j, grid_at ((IZR n - 1) / 2 + 0) 1 n j = IZR j) by (intros; rewrite Rplus_0_r; apply grid_int_identity).
  exists xs, r. split; [exact H1|]. split; [|split; [exact H2|]].
  - split; [congruence|]. intros i Hi. rewrite H3 in Hi. apply inb1 in Hi. destruct Hi as [j [-> Hj]].
    change (get r [j]) with (g1 r j). rewrite (proj2 (H4 j Hj)), G. change [IZR j] with (toR [j]).
    rewrite interpN_int by (auto; repeat constructor; auto). rewrite modl_small by (simpl; lia). reflexivity.
  - intros j Hj. rewrite (proj1 (H4 j Hj)). apply G.
Qed.
Print Assumptions C16_zoom1d_default_is_identity.

Theorem C16_zoomnd_default_is_identity_2d :
  forall env (inp : arr C) ny nx nt np,
  shape inp = [ny; nx] -> (0 < ny)%Z -> (0 < nx)%Z ->
  exists xs r, zoomnd env inp [] (fun x => x) 1 None nt np false true = Ok (Some xs, CplxArr r) /\
    aeq r inp /\ shape xs = [2%Z; ny; nx] /\
    forall i j, (0 <= i < ny)%Z -> (0 <= j < nx)%Z -> get xs [0%Z; i; j] = IZR i /\ get xs [1%Z; i; j] = IZR j.
Proof.
  intros env inp ny nx nt np Hs Hy Hx.
  assert (E : zoomnd env inp [] (fun x => x) 1 None nt np false true =
     zoom_on_pixel env inp [IZR (ny - 1) / 2 + 0; IZR (nx - 1) / 2 + 0] 1 None nt np false true).
  { unfold zoomnd, ndim. rewrite Hs. reflexivity. }
  rewrite E.
  destruct (zoom2_ok env inp ny nx (IZR (ny - 1) / 2 + 0) (IZR (nx - 1) / 2 + 0) 1 None ny nx nt np false true Hs Hy Hx ltac:(lra) Hs Hy Hx) as [xs [r [H1 [H2 [H3 H4]]]]].
  assert (G : forall n j, grid_at (IZR (n - 1) / 2 + 0) 1 n j = IZR j).
  { intros. rewrite Rplus_0_r, minus_IZR. apply grid_int_identity. }
  exists xs, r. split; [exact H1|]. split; [|split; [exact H2|]].
  - split; [congruence|]. intros k Hk. rewrite H3 in Hk. apply inb2 in Hk. destruct Hk as [i [j [-> [Hi Hj]]]].
    change (get r [i; j]) with (g2 r i j). destruct (H4 i j Hi Hj) as [_ [_ E3]]. rewrite E3, !G.
    change [IZR i; IZR j] with (toR [i; j]).
    rewrite interpN_int by (auto; repeat constructor; auto). rewrite modl_small by (simpl; lia). reflexivity.
  - intros i j Hi Hj. destruct (H4 i j Hi Hj) as [E1 [E2 _]]. rewrite E1, E2, !G. auto.
Qed.
Print Assumptions C16_zoomnd_default_is_identity_2d.

Theorem C16_zoomnd_default_is_identity_1d :
  forall env (inp : arr C) n nt np,
  shape inp = [n] -> (1 < n)%Z ->
  exists xs r, zoomnd env inp [] (fun x => x) 1 None nt np false true = Ok (Some xs, CplxArr r) /\
    aeq r inp /\ forall i, (0 <= i < n)%Z -> get xs [0%Z; i] = IZR i.
Proof.
  intros env inp n nt np Hs Hn.
  assert (E : zoomnd env inp [] (fun x => x) 1 None nt np false true =
     zoom_on_pixel env inp [IZR (n - 1) / 2 + 0] 1 None nt np false true).
  { unfold zoomnd, ndim. rewrite Hs. reflexivity. }
  rewrite E.
  destruct (zoom1_ok env inp n (IZR (n - 1) / 2 + 0) 1 None n nt np false true Hs ltac:(lia) ltac:(lra) Hs ltac:(lia) ltac:(lia)) as [xs [r [H1 [H2 [H3 H4]]]]].
  assert (G : forall n j, grid_at (IZR (n - 1) / 2 + 0) 1 n j = IZR j).
  { intros. rewrite Rplus_0_r, minus_IZR. apply grid_int_identity. }
  exists xs, r. split; [exact H1|]. split.
  - split; [congruence|]. intros k Hk. rewrite H3 in Hk. apply inb1 in Hk. destruct Hk as [i [-> Hi]].
    change (get r [i]) with (g1 r i). destruct (H4 i Hi) as [_ E3]. rewrite E3, !G.
    change [IZR i] with (toR [i]).
    rewrite interpN_int by (auto; repeat constructor; lia). rewrite modl_small by (simpl; lia). reflexivity.
  - intros i Hi. destruct (H4 i Hi) as [E1 _]. rewrite E1, G. auto.
Qed.
Print Assumptions C16_zoomnd_default_is_identity_1d.

(** *** C17: values match the coordinates returned beside them *)
Theorem C17_zoom1d_values :
  forall env (inp : arr R) n usfac outsize offset nt np,
  shape inp = [n] -> (0 < n)%Z -> usfac <> 0 ->
  (0 <= match outsize with None => n | Some m => m end)%Z ->
  exists xs r, zoom1d env (amap RtoC inp) usfac outsize offset nt np true true = Ok (Some xs, RealArr r) /\
    shape r = shape xs /\
    forall j, inb (shape xs) [j] ->
      g1 r j = trig_interpR [n] (get inp) [g1 xs j] /\
      (forall t : Z, (0 <= t < n)%Z -> g1 xs j = IZR t -> g1 r j = g1 inp t).
Proof.
  intros env inp n u om off nt np Hs Hn Hu Hm.
  destruct (zoom1d_ok env (amap RtoC inp) n u om off nt np true true Hs Hn Hu Hm) as [xs [r [H1 [H2 [H3 H4]]]]].
  exists xs. eexists. split; [exact H1|]. split; [simpl; congruence|]. intros j Hj. rewrite H2 in Hj. simpl in Hj.
  destruct Hj as [Hj _]. destruct (H4 j Hj) as [E1 E2]. rewrite <- E1 in E2.
  assert (Hp : pos_shape [n]) by (repeat constructor; auto).
  unfold g1 at 1 4. simpl. change (get r [j]) with (g1 r j). rewrite E2. split.
  - apply interpN_realpart; auto.
  - intros t Ht Et. rewrite Et. change [IZR t] with (toR [t]). rewrite interpN_int by auto.
    rewrite modl_small by (simpl; lia). reflexivity.
Qed.
Print Assumptions C17_zoom1d_values.

Theorem C17_zoom_on_pixel_2d_values :
  forall env (inp : arr R) ny nx cy cx usfac outshape my mx nt np,
  shape inp = [ny; nx] -> (0 < ny)%Z -> (0 < nx)%Z -> usfac <> 0 ->
  match outshape with None => shape inp | Some s => s end = [my; mx] -> (0 < my)%Z -> (0 < mx)%Z ->
  exists xs r, zoom_on_pixel env (amap RtoC inp) [cy; cx] usfac outshape nt np true true = Ok (Some xs, RealArr r) /\
    shape r = [my; mx] /\
    forall i j, (0 <= i < my)%Z -> (0 <= j < mx)%Z ->
      g2 r i j = trig_interpR [ny; nx] (get inp) [get xs [0%Z; i; j]; get xs [1%Z; i; j]] /\
      (forall s t : Z, (0 <= s < ny)%Z -> (0 <= t < nx)%Z -> get xs [0%Z; i; j] = IZR s -> get xs [1%Z; i; j] = IZR t ->
         g2 r i j = g2 inp s t).
Proof.
  intros env inp ny nx cy cx u o my mx nt np Hs Hy Hx Hu Ho Hmy Hmx.
  destruct (zoom2_ok env (amap RtoC inp) ny nx cy cx u o my mx nt np true true Hs Hy Hx Hu Ho Hmy Hmx) as [xs [r [H1 [H2 [H3 H4]]]]].
  exists xs. eexists. split; [exact H1|]. split; [exact H3|]. intros i j Hi Hj.
  destruct (H4 i j Hi Hj) as [E1 [E2 E3]]. rewrite <- E1, <- E2 in E3.
  assert (Hp : pos_shape [ny; nx]) by (repeat constructor; auto).
  unfold g2 at 1 2. simpl. change (get r [i; j]) with (g2 r i j). rewrite E3. split.
  - apply interpN_realpart; auto.
  - intros s t Hs' Ht E4 E5. rewrite E4, E5. change [IZR s; IZR t] with (toR [s; t]). rewrite interpN_int by auto.
    rewrite modl_small by (simpl; lia). reflexivity.
Qed.
Print Assumptions C17_zoom_on_pixel_2d_values.

Theorem C17_zoom_on_pixel_1d_values :
  forall env (inp : arr R) n c usfac outshape m nt np,
  shape inp = [n] -> (0 < n)%Z -> usfac <> 0 ->
  match outshape with None => shape inp | Some s => s end = [m] -> (0 <= m)%Z -> m <> 1%Z ->
  exists xs r, zoom_on_pixel env (amap RtoC inp) [c] usfac outshape nt np true true = Ok (Some xs, RealArr r) /\
    shape r = [m] /\
    forall j, (0 <= j < m)%Z -> g1 r j = trig_interpR [n] (get inp) [get xs [0%Z; j]].
Proof.
  intros env inp n c u o m nt np Hs Hn Hu Ho Hm Hm1.
  destruct (zoom1_ok env (amap RtoC inp) n c u o m nt np true true Hs Hn Hu Ho Hm Hm1) as [xs [r [H1 [H2 [H3 H4]]]]].
  exists xs. eexists. split; [exact H1|]. split; [exact H3|]. intros j Hj.
  destruct (H4 j Hj) as [E1 E3]. rewrite <- E1 in E3.
  assert (Hp : pos_shape [n]) by (repeat constructor; auto).
  unfold g1 at 1. simpl. change (get r [j]) with (g1 r j). rewrite E3. apply interpN_realpart; auto.
Qed.
Print Assumptions C17_zoom_on_pixel_1d_values.

Example C17_nonvacuous : let inp := mk1 5 (fun x => IZR (x * x)) in
  shape inp = [5]%Z /\ 3 <> 0 /\ (0 <= match Some 7%Z with None => 5 | Some m => m end)%Z.
Proof. repeat split; try lia. lra. Qed.

(** *** C18: zoom1d and zoomnd agree; argument validation *)
Theorem C18_zoom1d_zoomnd_agree :
  forall env (inp : arr C) n usfac m offset nt np rreal,
  shape inp = [n] -> (0 < n)%Z -> usfac <> 0 -> (0 <= m)%Z -> m <> 1%Z ->
  exists xs r xs' r',
    zoom1d env inp usfac (Some m) offset nt np true rreal = Ok (Some xs, r) /\
    zoomnd env inp [offset] (fun x => x) usfac (Some [m]) nt np rreal true = Ok (Some xs', r') /\
    anyeq r r' /\ forall j, (0 <= j < m)%Z -> g1 xs j = get xs' [0%Z; j].
Proof.
  intros env inp n u m off nt np rr Hs Hn Hu Hm Hm1.
  destruct (zoom1d_ok env inp n u (Some m) off nt np true rr Hs Hn Hu Hm) as [xs [r [H1 [H2 [H3 H4]]]]].
  assert (E : zoomnd env inp [off] (fun x => x) u (Some [m]) nt np rr true =
     zoom_on_pixel env inp [IZR (n - 1) / 2 + off] u (Some [m]) nt np rr true).
  { unfold zoomnd, ndim. rewrite Hs. reflexivity. }
  rewrite minus_IZR in E.
  destruct (zoom1_ok env inp n ((IZR n - 1) / 2 + off) u (Some [m]) m nt np rr true Hs Hn Hu eq_refl Hm Hm1) as [xs' [r' [H1' [H2' [H3' H4']]]]].
  rewrite E. exists xs. eexists. exists xs'. eexists. split; [exact H1|]. split; [exact H1'|]. split.
  - assert (A : aeq r r').
    { split; [congruence|]. intros i Hi. rewrite H3 in Hi. apply inb1 in Hi. destruct Hi as [j [-> Hj]].
      change (g1 r j = g1 r' j). rewrite (proj2 (H4 j Hj)), (proj2 (H4' j Hj)). reflexivity. }
    destruct A as [A1 A2]. destruct rr; simpl; split; auto; intros i Hi; simpl; rewrite ?A2; auto.
  - intros j Hj. rewrite (proj1 (H4 j Hj)), (proj1 (H4' j Hj)). reflexivity.
Qed.
Print Assumptions C18_zoom1d_zoomnd_agree.

(** a one-pixel 1-D zoom: zoomnd raises (squeeze makes the coordinate array 0-d) although zoom1d succeeds *)
Theorem C18_one_pixel_zoom_refuted :
  forall env (inp : arr C) n usfac offset nt np rreal,
  shape inp = [n] -> (0 < n)%Z -> usfac <> 0 ->
  (exists xs r, zoom1d env inp usfac (Some 1%Z) offset nt np true rreal = Ok (Some xs, r)) /\
  zoomnd env inp [offset] (fun x => x) usfac (Some [1%Z]) nt np rreal true = Raise ValueError.
Proof.
  intros env inp n u off nt np rr Hs Hn Hu. split.
  - destruct (zoom1d_ok env inp n u (Some 1%Z) off nt np true rr Hs Hn Hu ltac:(simpl; lia)) as [xs [r [H1 _]]].
    exists xs. eexists. exact H1.
  - unfold zoomnd, ndim. rewrite Hs. simpl. unfold zoom_on_pixel. rewrite Hs. simpl. rewrite pydiv_ok by auto. simpl.
    unfold fourier_interp1d. destruct (get_ffts env nt np). rewrite Hs. simpl.
    unfold check_freqs; simpl. destruct (Z.eqb_spec n 0); [lia|]. reflexivity.
Qed.
Print Assumptions C18_one_pixel_zoom_refuted.

Theorem C18_argument_validation :
  forall env (inp : arr C) offsets mc usfac outshape nt np rreal rx,
  (offsets <> [] -> length offsets <> ndim inp ->
     zoomnd env inp offsets mc usfac outshape nt np rreal rx = Raise ValueError) /\
  (forall coords, (2 < ndim inp)%nat -> usfac <> 0 ->
     match outshape with None => shape inp | Some s => s end = shape inp ->
     Forall (fun n => 0 <= n)%Z (shape inp) ->
     zoom_on_pixel env inp coords usfac outshape nt np rreal rx = Raise NotImplementedError).
Proof.
  intros env inp offsets mc u o nt np rr rx. split.
  - intros H1 H2. unfold zoomnd.
    destruct (Nat.ltb_spec 0 (length offsets)) as [L|L].
    + destruct (Nat.eqb_spec (length offsets) (ndim inp)); [congruence|reflexivity].
    + destruct offsets; [congruence|simpl in L; lia].
  - intros coords Hd Hu Ho Hp. unfold zoom_on_pixel. rewrite Ho.
    rewrite Nat.eqb_refl. simpl.
    replace (existsb (fun m => (m <? 0)%Z) (shape inp)) with false.
    2:{ symmetry. clear -Hp. induction Hp; simpl; auto. rewrite IHHp. destruct (Z.ltb_spec x 0); [lia|reflexivity]. }
    rewrite pydiv_ok by auto. simpl.
    destruct (Nat.eqb (length (combine (shape inp) coords)) 0); simpl;
      unfold ndim in Hd; destruct (shape inp) as [|n1 [|n2 [|n3 l]]]; simpl in Hd; try lia; reflexivity.
Qed.
Print Assumptions C18_argument_validation.

Example C18_nonvacuous : let inp := mk1 5 (fun x => RtoC (IZR (x * x))) in
  shape inp = [5]%Z /\ 3 <> 0 /\ (7 <> 1)%Z /\ length [1; 2; 3] <> ndim inp.
Proof. repeat split; try lia; try lra. discriminate. Qed.
