(** Properties C40, C42, C43: automatic factor, error bars, invariances and return layout of chi2_shift *)
From Coq Require Import ZArith Lia List Reals Lra Bool.
From Coquelicot Require Import Complex.
From Verif Require Import Base NDim DFT Kernel Py M_fast_ffts M_shift M_scale M_zoom M_downsample M_convolve M_correlate Arg M_chi2
  Spec L_shift L_scale L_zoom L_convolve Sum2 Spec2 L_correlate L_chi2 P_chi2map L_chi2shift L_fshift P_chi2shift.
Import ListNotations.
Open Scope R_scope.

(** *** C42 *)
(** pixel (y, x) lies within [t] of the map's minimum, which is at (ym, xm) *)
Definition near_min (ny nx : Z) (m : Z -> Z -> R) (ym xm : Z) (t : R) (y x : Z) : Prop :=
  (0 <= y < ny)%Z /\ (0 <= x < nx)%Z /\ m y x < m ym xm + t.
(** v is the largest value of f over the pixels near the minimum *)
Definition largest (P : Z -> Z -> Prop) (f : Z -> Z -> R) (v : R) : Prop :=
  (exists y x, P y x /\ v = f y x) /\ forall y x, P y x -> f y x <= v.

Lemma inwin_near ny nx m t y x ym xm : (0 < ny)%Z -> (0 < nx)%Z -> argmin2 ny nx m = (ym, xm) ->
  (inwin ny nx m t y x <-> near_min ny nx m ym xm t y x).
Proof. intros Hy Hx E. unfold inwin, near_min, min2. rewrite E. cbn [fst snd]. tauto. Qed.

Lemma extent_unique ny nx m t a b c d a' b' c' d' : extent ny nx m t a b c d -> extent ny nx m t a' b' c' d' ->
  a = a' /\ b = b' /\ c = c' /\ d = d'.
Proof.
  intros [[x1 A1] [[x2 A2] [[y3 A3] [[y4 A4] A5]]]] [[x1' B1] [[x2' B2] [[y3' B3] [[y4' B4] B5]]]].
  apply B5 in A1, A2, A3, A4. apply A5 in B1, B2, B3, B4. lia.
Qed.

Theorem C42_error_bars :
  forall e (map0 : arr R) zoomfactor nsigma nfitted ny nx t,
  shape map0 = [ny; nx] -> (0 < ny)%Z -> (0 < nx)%Z -> 0 < zoomfactor ->
  sigma_to_chi2 e nsigma nfitted = Ok (Fin t) -> 0 < t ->
  exists ym xm xlow xhigh ylow yhigh,
    is_argmin2 ny nx (g2 map0) (ym, xm) /\
    chi2map_to_errors e map0 zoomfactor nsigma nfitted = Ok (xlow, xhigh, ylow, yhigh) /\
    0 <= xlow /\ 0 <= xhigh /\ 0 <= ylow /\ 0 <= yhigh /\
    xlow + xhigh <= (IZR nx - 1) / zoomfactor /\ ylow + yhigh <= (IZR ny - 1) / zoomfactor /\
    let P := near_min ny nx (g2 map0) ym xm t in
    largest P (fun y x => IZR (xm - x) / zoomfactor) xlow /\ largest P (fun y x => IZR (x - xm) / zoomfactor) xhigh /\
    largest P (fun y x => IZR (ym - y) / zoomfactor) ylow /\ largest P (fun y x => IZR (y - ym) / zoomfactor) yhigh.
Proof.
  intros e map0 zf ns nf ny nx t Hs Hy Hx Hz Ht Ht0.
  destruct (errors_ok e map0 zf ns nf ny nx t Hs Hy Hx Hz Ht Ht0) as [ylo [yhi [xlo [xhi [X E]]]]].
  assert (Sa := argmin2_spec ny nx (g2 map0) Hy Hx). assert (Pn := area_nonempty ny nx (g2 map0) t Hy Hx Ht0).
  destruct (argmin2 ny nx (g2 map0)) as [ym xm] eqn:Ea. cbv zeta in E. cbn [fst snd] in E.
  exists ym, xm, (IZR (xm - xlo) / zf), (IZR (xhi - xm) / zf), (IZR (ym - ylo) / zf), (IZR (yhi - ym) / zf).
  split; [exact Sa|]. split; [exact E|].
  apply area_In in Pn. destruct X as [[x1 B1] [[x2 B2] [[y3 B3] [[y4 B4] B5]]]].
  assert (Q := B5 _ _ Pn).
  assert (Hi : 0 < / zf) by (apply Rinv_0_lt_compat; auto).
  assert (D : forall a, (0 <= a)%Z -> 0 <= IZR a / zf) by (intros a Ha; unfold Rdiv; apply Rmult_le_pos; [apply IZR_le; auto|lra]).
  assert (D2 : forall a b n, (a + b <= n - 1)%Z -> IZR a / zf + IZR b / zf <= (IZR n - 1) / zf).
  { intros a b n H. unfold Rdiv. rewrite <- Rmult_plus_distr_r. apply Rmult_le_compat_r; [lra|]. rewrite <- plus_IZR, <- minus_IZR. apply IZR_le; auto. }
  assert (R1 := B1). assert (R2 := B2). assert (R3 := B3). assert (R4 := B4).
  unfold inwin in R1, R2, R3, R4.
  split; [apply D; lia|]. split; [apply D; lia|]. split; [apply D; lia|]. split; [apply D; lia|].
  split; [apply D2; lia|]. split; [apply D2; lia|]. cbv zeta.
  assert (W : forall y x, near_min ny nx (g2 map0) ym xm t y x <-> inwin ny nx (g2 map0) t y x) by (intros; symmetry; apply inwin_near; auto).
  assert (Mo : forall a b, (a <= b)%Z -> IZR a / zf <= IZR b / zf) by (intros a b H; unfold Rdiv; apply Rmult_le_compat_r; [lra|apply IZR_le; auto]).
  split; [|split; [|split]]; (split; [|intros y x Hin; apply W in Hin; apply B5 in Hin; apply Mo; lia]).
  - exists y3, xlo. split; [apply W; auto|reflexivity].
  - exists y4, xhi. split; [apply W; auto|reflexivity].
  - exists ylo, x1. split; [apply W; auto|reflexivity].
  - exists yhi, x2. split; [apply W; auto|reflexivity].
Qed.
Print Assumptions C42_error_bars.

Definition le4 (a b : R * R * R * R) : Prop :=
  let '(a1, a2, a3, a4) := a in let '(b1, b2, b3, b4) := b in a1 <= b1 /\ a2 <= b2 /\ a3 <= b3 /\ a4 <= b4.

Theorem C42_monotone_in_level :
  forall e (map0 : arr R) zoomfactor nsigma nsigma' nfitted nfitted' ny nx t t',
  shape map0 = [ny; nx] -> (0 < ny)%Z -> (0 < nx)%Z -> 0 < zoomfactor ->
  sigma_to_chi2 e nsigma nfitted = Ok (Fin t) -> sigma_to_chi2 e nsigma' nfitted' = Ok (Fin t') -> 0 < t <= t' ->
  exists r r', chi2map_to_errors e map0 zoomfactor nsigma nfitted = Ok r /\
    chi2map_to_errors e map0 zoomfactor nsigma' nfitted' = Ok r' /\ le4 r r'.
Proof.
  intros e map0 zf ns ns' nf nf' ny nx t t' Hs Hy Hx Hz Ht Ht' Hle.
  destruct (errors_ok e map0 zf ns nf ny nx t Hs Hy Hx Hz Ht ltac:(lra)) as [ylo [yhi [xlo [xhi [X E]]]]].
  destruct (errors_ok e map0 zf ns' nf' ny nx t' Hs Hy Hx Hz Ht' ltac:(lra)) as [ylo' [yhi' [xlo' [xhi' [X' E']]]]].
  eexists. eexists. split; [exact E|]. split; [exact E'|]. cbn [le4].
  assert (W : forall y x, inwin ny nx (g2 map0) t y x -> inwin ny nx (g2 map0) t' y x) by (unfold inwin; intros y x H; repeat split; try tauto; lra).
  destruct X as [[x1 B1] [[x2 B2] [[y3 B3] [[y4 B4] _]]]]. destruct X' as [_ [_ [_ [_ B5]]]].
  apply W, B5 in B1, B2, B3, B4.
  assert (Hi : 0 < / zf) by (apply Rinv_0_lt_compat; auto).
  assert (Mo : forall a b, (a <= b)%Z -> IZR a / zf <= IZR b / zf) by (intros a b H; unfold Rdiv; apply Rmult_le_compat_r; [lra|apply IZR_le; auto]).
  repeat split; apply Mo; lia.
Qed.
Print Assumptions C42_monotone_in_level.

Theorem C42_inverse_to_zoom :
  forall e (map0 : arr R) zoomfactor nsigma nfitted ny nx t,
  shape map0 = [ny; nx] -> (0 < ny)%Z -> (0 < nx)%Z -> 0 < zoomfactor ->
  sigma_to_chi2 e nsigma nfitted = Ok (Fin t) -> 0 < t ->
  exists a b c d, chi2map_to_errors e map0 1 nsigma nfitted = Ok (a, b, c, d) /\
    chi2map_to_errors e map0 zoomfactor nsigma nfitted = Ok (a / zoomfactor, b / zoomfactor, c / zoomfactor, d / zoomfactor).
Proof.
  intros e map0 zf ns nf ny nx t Hs Hy Hx Hz Ht Ht0.
  destruct (errors_ok e map0 zf ns nf ny nx t Hs Hy Hx Hz Ht Ht0) as [ylo [yhi [xlo [xhi [X E]]]]].
  destruct (errors_ok e map0 1 ns nf ny nx t Hs Hy Hx ltac:(lra) Ht Ht0) as [ylo' [yhi' [xlo' [xhi' [X' E']]]]].
  destruct (extent_unique _ _ _ _ _ _ _ _ _ _ _ _ X X') as [<- [<- [<- <-]]].
  eexists. eexists. eexists. eexists. split; [exact E'|]. cbv zeta in E. rewrite E. unfold Rdiv. rewrite Rinv_1, !Rmult_1_r. reflexivity.
Qed.
Print Assumptions C42_inverse_to_zoom.

Theorem C42_constant_offset :
  forall e (map0 map1 : arr R) k zoomfactor nsigma nfitted ny nx t,
  shape map0 = [ny; nx] -> shape map1 = [ny; nx] -> (0 < ny)%Z -> (0 < nx)%Z -> 0 < zoomfactor ->
  sigma_to_chi2 e nsigma nfitted = Ok (Fin t) -> 0 < t ->
  (forall y x, (0 <= y < ny)%Z -> (0 <= x < nx)%Z -> g2 map1 y x = g2 map0 y x + k) ->
  chi2map_to_errors e map1 zoomfactor nsigma nfitted = chi2map_to_errors e map0 zoomfactor nsigma nfitted.
Proof.
  intros e map0 map1 k zf ns nf ny nx t Hs Hs' Hy Hx Hz Ht Ht0 Hk.
  destruct (errors_ok e map0 zf ns nf ny nx t Hs Hy Hx Hz Ht Ht0) as [ylo [yhi [xlo [xhi [X E]]]]].
  destruct (errors_ok e map1 zf ns nf ny nx t Hs' Hy Hx Hz Ht Ht0) as [ylo' [yhi' [xlo' [xhi' [X' E']]]]].
  assert (Ea : argmin2 ny nx (g2 map1) = argmin2 ny nx (g2 map0)).
  { apply argmin2_mono; auto. intros i j k0 l Hi Hj Hk0 Hl. rewrite !Hk by auto. split; lra. }
  assert (Em : min2 ny nx (g2 map1) = min2 ny nx (g2 map0) + k).
  { unfold min2. rewrite Ea. assert (S := argmin2_spec ny nx (g2 map0) Hy Hx). destruct S as [S1 [S2 _]]. apply Hk; auto. }
  assert (W : forall y x, inwin ny nx (g2 map1) t y x <-> inwin ny nx (g2 map0) t y x).
  { intros y x. unfold inwin. rewrite Em. split; intros [A [B D]]; (split; [auto|split; [auto|]]); rewrite Hk in * by auto; lra. }
  assert (X2 : extent ny nx (g2 map0) t ylo' yhi' xlo' xhi').
  { destruct X' as [[x1 B1] [[x2 B2] [[y3 B3] [[y4 B4] B5]]]].
    split; [exists x1; apply W; auto|]. split; [exists x2; apply W; auto|]. split; [exists y3; apply W; auto|]. split; [exists y4; apply W; auto|].
    intros y x H. apply B5. apply W; auto. }
  destruct (extent_unique _ _ _ _ _ _ _ _ _ _ _ _ X X2) as [<- [<- [<- <-]]].
  cbv zeta in E, E'. rewrite E, E', Ea. reflexivity.
Qed.
Print Assumptions C42_constant_offset.

(** a level that is not positive (nsigma = 0, or a NaN level) selects no pixel and the call raises ValueError *)
Theorem C42_no_level_raises :
  forall e (map0 : arr R) zoomfactor nsigma nfitted ny nx lv,
  shape map0 = [ny; nx] -> (0 < ny)%Z -> (0 < nx)%Z -> zoomfactor <> 0 ->
  sigma_to_chi2 e nsigma nfitted = Ok lv -> match lv with Fin t => t <= 0 | NaN => True end ->
  chi2map_to_errors e map0 zoomfactor nsigma nfitted = Raise ValueError.
Proof.
  intros e map0 zf ns nf ny nx lv Hs Hy Hx Hz Ht Hlv. unfold chi2map_to_errors. rewrite Hs.
  destruct (Req_EM_T zf 0); [lra|]. destruct (Z.leb_spec ny 0); [lia|]. destruct (Z.leb_spec nx 0); [lia|]. cbn [orb].
  rewrite Ht. cbn [bind].
  assert (E : area ny nx (g2 map0) lv = []).
  { destruct lv as [t|].
    - destruct (area ny nx (g2 map0) (Fin t)) as [|[y x] l] eqn:Ea; auto. exfalso.
      assert (H1 : inwin ny nx (g2 map0) t y x) by (apply area_In; rewrite Ea; left; auto).
      destruct H1 as [A [B D]]. assert (S := argmin2_spec ny nx (g2 map0) Hy Hx). destruct S as [_ [_ [S3 _]]].
      specialize (S3 y x A B). fold (min2 ny nx (g2 map0)) in S3. lra.
    - unfold area. induction (pixels ny nx) as [|p l IH]; auto. }
  rewrite E. reflexivity.
Qed.
Print Assumptions C42_no_level_raises.

Example C42_nonvacuous : let m := mk2 2 3 (fun y x => IZR ((y - 1) ^ 2 + x ^ 2)) in
  let e := Env false (2 ^ 30) true (fun s _ => Fin s) in
  shape m = [2; 3]%Z /\ sigma_to_chi2 e 2 2 = Ok (Fin 2) /\ chi2map_to_errors e m 4 2 2 = Ok (0, 1 / 4, 1 / 4, 0).
Proof.
  cbv zeta. split; [reflexivity|].
  assert (T : sigma_to_chi2 (Env false (2 ^ 30) true (fun s _ => Fin s)) 2 2 = Ok (Fin 2)).
  { unfold sigma_to_chi2. cbn [e_scipy e_ppf]. destruct (Rlt_dec 2 8); [reflexivity|lra]. }
  split; [exact T|].
  set (m := mk2 2 3 (fun y x => IZR ((y - 1) ^ 2 + x ^ 2))).
  destruct (errors_ok (Env false (2 ^ 30) true (fun s _ => Fin s)) m 4 2 2 2 3 2) as [ylo [yhi [xlo [xhi [X E]]]]]; auto; try lia; try lra.
  assert (Ea : argmin2 2 3 (g2 m) = (1, 0)%Z).
  { apply argmin2_strict; try lia. intros i j Hi Hj Hne. unfold g2, m, mk2; cbn [get]. apply IZR_lt.
    assert (~ (i = 1 /\ j = 0)%Z) by (intros [-> ->]; auto). simpl (1 - 1)%Z. nia. }
  assert (X2 : extent 2 3 (g2 m) 2 0 1 0 1).
  { assert (W : forall y x, inwin 2 3 (g2 m) 2 y x <-> ((0 <= y < 2)%Z /\ (0 <= x < 3)%Z /\ ((y - 1) ^ 2 + x ^ 2 < 2)%Z)).
    { intros y x. unfold inwin, min2. rewrite Ea. cbn [fst snd]. unfold g2, m, mk2; cbn [get]. change ((1 - 1) ^ 2 + 0 ^ 2)%Z with 0%Z.
      split; intros [A [B D]]; (split; [auto|split; [auto|]]).
      - apply lt_IZR. lra.
      - apply IZR_lt in D. lra. }
    split; [exists 0%Z; apply W; lia|]. split; [exists 0%Z; apply W; lia|]. split; [exists 1%Z; apply W; lia|]. split; [exists 1%Z; apply W; lia|].
    intros y x H. apply W in H. split; [lia|]. nia. }
  destruct (extent_unique _ _ _ _ _ _ _ _ _ _ _ _ X X2) as [-> [-> [-> ->]]].
  cbv zeta in E. rewrite E, Ea. cbn [fst snd]. unfold Rdiv. simpl Z.sub. rewrite !Rmult_0_l. reflexivity.
Qed.

(** *** C43: return layout, invariances *)
Theorem C43_return_layout :
  forall e im1 im2 err us nthreads use_np zeromean nfitted (ret_err ret_arr : bool) mas mns allow_huge ny nx u s1 s2 t,
  shape im1 = [ny; nx] -> shape im2 = [ny; nx] -> (0 < ny)%Z -> (0 < nx)%Z -> err_ok err ny nx -> size_ok e allow_huge ny nx ->
  explicit_grid us ny nx u s1 s2 -> one_sigma e t ->
  exists x y ex ey xv yv ups,
    chi2_shift e im1 im2 err us BWrap nthreads use_np zeromean nfitted false ret_err ret_arr mas mns allow_huge =
      Ok ([RNum x; RNum y] ++ (if ret_err then [RNum ex; RNum ey] else []) ++ (if ret_arr then [RMaps xv yv ups] else [])) /\
    0 <= ex <= (IZR s2 - 1) / u / 2 /\ 0 <= ey <= (IZR s1 - 1) / u / 2 /\
    shape xv = [s1; s2] /\ shape yv = [s1; s2] /\ shape ups = [s1; s2] /\
    (* the shift is minus the coordinates at the minimum of the returned chi2 array *)
    exists i j, is_argmin2 s1 s2 (g2 ups) (i, j) /\ x = - g2 xv i j /\ y = - g2 yv i j.
Proof.
  intros e im1 im2 err us nt np zm nf re rc mas mns huge ny nx u s1 s2 t H1 H2 Hy Hx He Hh Hg Ht.
  destruct (chi2n_map_ok e im1 im2 err nt zm np true false huge ny nx H1 H2 Hy Hx He Hh ltac:(discriminate)) as [c [t1 [t2 [t3 [E [S1 _]]]]]].
  destruct (explicit_window_ok e us ny nx u s1 s2 (g2 c) mas mns nf Hy Hx Hg) as [W [W1 [W2 W3]]].
  apply one_sigma_thr in Ht. destruct Ht as [Ht Ht0].
  assert (K := chi2_shift_ok e im1 im2 err us BWrap nt np zm nf re rc mas mns huge ny nx c t1 t2 t3 u s1 s2 t H1 Hy Hx E S1 W W1 W2 W3 Ht Ht0).
  destruct (argmin2 ny nx (g2 c)) as [ym xm]. cbv zeta in K.
  destruct K as [ups [i [j [ylo [yhi [xlo [xhi [Ea [Su [Vu [X [xv [yv [Sx [Sy [Vx K]]]]]]]]]]]]]]]].
  set (M := fun i j => trig_interpR [ny; nx] (get c) [grid_at (zcen ny ym) u s1 i; grid_at (zcen nx xm) u s2 j]) in *.
  exists (node nx xm s2 u j), (node ny ym s1 u i), (IZR (xhi - xlo) / u / 2), (IZR (yhi - ylo) / u / 2), xv, yv, ups.
  assert (Hi : 0 < / u) by (apply Rinv_0_lt_compat; auto).
  assert (B : forall a b n, (0 <= a)%Z -> (a <= b)%Z -> (b < n)%Z -> 0 <= IZR (b - a) / u / 2 <= (IZR n - 1) / u / 2).
  { intros a b n Ha Hb Hn. assert (0 <= IZR (b - a)) by (apply IZR_le; lia).
    assert (IZR (b - a) <= IZR n - 1) by (rewrite <- (minus_IZR n 1); apply IZR_le; lia).
    assert (0 <= IZR (b - a) / u) by (apply Rmult_le_pos; lra). assert (IZR (b - a) / u <= (IZR n - 1) / u) by (apply Rmult_le_compat_r; lra). lra. }
  destruct X as [[x1 B1] [[x2 B2] [[y3 B3] [[y4 B4] B5]]]].
  assert (Q1 := B5 _ _ B1). assert (Q4 := B5 _ _ B4). unfold inwin in B1, B2, B3, B4.
  split; [exact K|]. split; [apply B; lia|]. split; [apply B; lia|]. split; [auto|]. split; [auto|]. split; [auto|].
  exists i, j. assert (Eu : argmin2 s1 s2 (g2 ups) = (i, j)) by (rewrite Ea; apply argmin2_ext; auto).
  assert (Sb := argmin2_spec s1 s2 (g2 ups) W2 W3). rewrite Eu in Sb. split; [exact Sb|].
  destruct Sb as [R1 [R2 _]]. cbn [fst snd] in *. destruct (Vx i j R1 R2) as [-> ->]. split; ring.
Qed.
Print Assumptions C43_return_layout.

Lemma area_ext ny nx f g lv : (0 < ny)%Z -> (0 < nx)%Z -> (forall y x, (0 <= y < ny)%Z -> (0 <= x < nx)%Z -> f y x = g y x) ->
  area ny nx f lv = area ny nx g lv.
Proof.
  intros Hy Hx H. unfold area.
  assert (Em : min2 ny nx f = min2 ny nx g).
  { unfold min2. rewrite (argmin2_ext ny nx f g) by auto. destruct (argmin2_spec ny nx g Hy Hx) as [A [B _]]. apply H; auto. }
  rewrite Em. apply filter_ext_in. intros [y x] Hin. apply pixels_In in Hin. cbn [fst snd]. rewrite H by tauto. reflexivity.
Qed.

(** the returned numbers depend on the images only through the chi2 map *)
Lemma chi2_shift_det e im1 im2 err jm1 jm2 err' us nt np zm zm' nf re mas mns huge ny nx c t1 t2 t3 c' t1' t2' t3' u s1 s2 t :
  shape im1 = [ny; nx] -> shape jm1 = [ny; nx] -> (0 < ny)%Z -> (0 < nx)%Z ->
  chi2n_map e im1 im2 err BWrap nt zm np true false huge = Ok (Chi2All c t1 t2 t3) -> shape c = [ny; nx] ->
  chi2n_map e jm1 jm2 err' BWrap nt zm' np true false huge = Ok (Chi2All c' t1' t2' t3') -> shape c' = [ny; nx] ->
  (forall k l, (0 <= k < ny)%Z -> (0 <= l < nx)%Z -> g2 c k l = g2 c' k l) ->
  window e us ny nx (g2 c) mas mns nf = Ok (u, [s1; s2]) -> 0 < u -> (0 < s1)%Z -> (0 < s2)%Z -> one_sigma e t ->
  chi2_shift e im1 im2 err us BWrap nt np zm nf false re false mas mns huge =
  chi2_shift e jm1 jm2 err' us BWrap nt np zm' nf false re false mas mns huge.
Proof.
  intros Hs Hs' Hy Hx Hm Hc Hm' Hc' Heq Hw Hu H1 H2 Ht. apply one_sigma_thr in Ht. destruct Ht as [Ht Ht0].
  assert (Hw' : window e us ny nx (g2 c') mas mns nf = Ok (u, [s1; s2])).
  { rewrite <- Hw. unfold window. destruct us; auto. unfold auto_size. rewrite (area_ext ny nx (g2 c') (g2 c)) by (auto; intros; symmetry; auto). reflexivity. }
  assert (K := chi2_shift_ok e im1 im2 err us BWrap nt np zm nf re false mas mns huge ny nx c t1 t2 t3 u s1 s2 t Hs Hy Hx Hm Hc Hw Hu H1 H2 Ht Ht0).
  assert (K' := chi2_shift_ok e jm1 jm2 err' us BWrap nt np zm' nf re false mas mns huge ny nx c' t1' t2' t3' u s1 s2 t Hs' Hy Hx Hm' Hc' Hw' Hu H1 H2 Ht Ht0).
  rewrite (argmin2_ext ny nx (g2 c') (g2 c)) in K' by (auto; intros; symmetry; auto).
  destruct (argmin2 ny nx (g2 c)) as [ym xm]. cbv zeta in K, K'.
  set (M := fun i j => trig_interpR [ny; nx] (get c) [grid_at (zcen ny ym) u s1 i; grid_at (zcen nx xm) u s2 j]) in *.
  set (M' := fun i j => trig_interpR [ny; nx] (get c') [grid_at (zcen ny ym) u s1 i; grid_at (zcen nx xm) u s2 j]) in *.
  assert (EM : M = M').
  { unfold M, M'. apply FunctionalExtensionality.functional_extensionality. intros i. apply FunctionalExtensionality.functional_extensionality. intros j.
    apply tiR_ext. intros y Hin. apply inb2' in Hin. destruct Hin as [k [l [-> [Hk Hl]]]]. apply (Heq k l Hk Hl). }
  rewrite <- EM in K'.
  destruct K as [ups [i [j [ylo [yhi [xlo [xhi [Ea [Su [Vu [X [xv [yv [Sx [Sy [Vx K]]]]]]]]]]]]]]]].
  destruct K' as [ups' [i' [j' [ylo' [yhi' [xlo' [xhi' [Ea' [Su' [Vu' [X' [xv' [yv' [Sx' [Sy' [Vx' K']]]]]]]]]]]]]]]].
  rewrite K, K'. rewrite <- Ea in Ea'. injection Ea' as -> ->.
  destruct (extent_unique _ _ _ _ _ _ _ _ _ _ _ _ X X') as [-> [-> [-> ->]]]. reflexivity.
Qed.

(** adding constants (to the valid pixels) *)
Definition add_const (k : R) (a : arr num) : arr num := amap (fun x => match x with Fin r => Fin (r + k) | NaN => NaN end) a.

Lemma prep_add_const k a ny nx y x : (0 < ny)%Z -> (0 < nx)%Z -> (0 <= y < ny)%Z -> (0 <= x < nx)%Z ->
  prep true (add_const k a) ny nx y x = prep true a ny nx y x.
Proof.
  intros Hy Hx HY HX. unfold prep. cbn [add_const amap get].
  destruct (get a [y; x]) as [r|] eqn:E; [|reflexivity].
  assert (Ec : valid_count (add_const k a) ny nx = valid_count a ny nx).
  { apply sum2_ext. intros i j Hi Hj. cbn [add_const amap get]. destruct (get a [i; j]); reflexivity. }
  assert (Es : pixel_sum ny nx (px (add_const k a)) = pixel_sum ny nx (px a) + k * valid_count a ny nx).
  { unfold valid_count. change (pixel_sum ny nx) with (sum2 ny nx). rewrite <- sum2_scal, <- sum2_plus. apply sum2_ext. intros i j Hi Hj.
    unfold px. cbn [add_const amap get]. destruct (get a [i; j]); ring. }
  assert (Hc : valid_count a ny nx <> 0).
  { assert (G := sum2_term_le ny nx (fun i j => match get a [i; j] with Fin _ => 1 | NaN => 0 end) y x
       ltac:(intros i j _ _; cbv beta; destruct (get a [i; j]); lra) HY HX). cbv beta in G. rewrite E in G.
    unfold valid_count. change (pixel_sum ny nx) with (sum2 ny nx). lra. }
  rewrite Es, Ec. field. exact Hc.
Qed.

Theorem C43_zeromean_ignores_constants :
  forall e im1 im2 err us nthreads use_np nfitted ret_err mas mns allow_huge ny nx u s1 s2 t k1 k2,
  shape im1 = [ny; nx] -> shape im2 = [ny; nx] -> (0 < ny)%Z -> (0 < nx)%Z -> err_ok err ny nx -> size_ok e allow_huge ny nx ->
  explicit_grid us ny nx u s1 s2 -> one_sigma e t ->
  chi2_shift e (add_const k1 im1) (add_const k2 im2) err us BWrap nthreads use_np true nfitted false ret_err false mas mns allow_huge =
  chi2_shift e im1 im2 err us BWrap nthreads use_np true nfitted false ret_err false mas mns allow_huge.
Proof.
  intros e im1 im2 err us nt np nf re mas mns huge ny nx u s1 s2 t k1 k2 H1 H2 Hy Hx He Hh Hg Ht.
  destruct (chi2n_map_ok e im1 im2 err nt true np true false huge ny nx H1 H2 Hy Hx He Hh ltac:(discriminate)) as [c [t1 [t2 [t3 [E [S1 [_ [_ V]]]]]]]].
  destruct (chi2n_map_ok e (add_const k1 im1) (add_const k2 im2) err nt true np true false huge ny nx H1 H2 Hy Hx He Hh ltac:(discriminate)) as [c' [t1' [t2' [t3' [E' [S1' [_ [_ V']]]]]]]].
  destruct (explicit_window_ok e us ny nx u s1 s2 (g2 c') mas mns nf Hy Hx Hg) as [W [W1 [W2 W3]]].
  eapply (chi2_shift_det e (add_const k1 im1) (add_const k2 im2) err im1 im2 err us nt np true true nf re mas mns huge ny nx); eauto.
  intros k l Hk Hl. destruct (V k l Hk Hl) as [_ [_ ->]]. destruct (V' k l Hk Hl) as [_ [_ ->]].
  apply sum2_ext. intros i j Hi Hj. f_equal. f_equal. unfold used_image.
  rewrite !prep_add_const by (auto; apply Z.mod_pos_bound; auto). reflexivity.
Qed.
Print Assumptions C43_zeromean_ignores_constants.

(** scaling a constant error leaves the shifts unchanged (explicit factor) *)
Theorem C43_error_scale_keeps_shift :
  forall e im1 im2 us s s' nthreads use_np zeromean nfitted ret_err ret_arr mas mns allow_huge ny nx u s1 s2 t,
  shape im1 = [ny; nx] -> shape im2 = [ny; nx] -> (0 < ny)%Z -> (0 < nx)%Z -> s <> 0 -> s' <> 0 -> size_ok e allow_huge ny nx ->
  explicit_grid us ny nx u s1 s2 -> one_sigma e t ->
  exists x y rest rest',
    chi2_shift e im1 im2 (ErrScalar s) us BWrap nthreads use_np zeromean nfitted false ret_err ret_arr mas mns allow_huge =
      Ok (RNum x :: RNum y :: rest) /\
    chi2_shift e im1 im2 (ErrScalar s') us BWrap nthreads use_np zeromean nfitted false ret_err ret_arr mas mns allow_huge =
      Ok (RNum x :: RNum y :: rest').
Proof.
  intros e im1 im2 us s s' nt np zm nf re rc mas mns huge ny nx u s1 s2 t H1 H2 Hy Hx Hs Hs' Hh Hg Ht.
  destruct (chi2n_map_ok e im1 im2 (ErrScalar s) nt zm np true false huge ny nx H1 H2 Hy Hx Hs Hh ltac:(discriminate)) as [c [t1 [t2 [t3 [E [S1 [_ [_ V]]]]]]]].
  destruct (chi2n_map_ok e im1 im2 (ErrScalar s') nt zm np true false huge ny nx H1 H2 Hy Hx Hs' Hh ltac:(discriminate)) as [c' [t1' [t2' [t3' [E' [S1' [_ [_ V']]]]]]]].
  destruct (explicit_window_ok e us ny nx u s1 s2 (g2 c) mas mns nf Hy Hx Hg) as [W [W1 [W2 W3]]].
  destruct (explicit_window_ok e us ny nx u s1 s2 (g2 c') mas mns nf Hy Hx Hg) as [W' _].
  apply one_sigma_thr in Ht. destruct Ht as [Ht Ht0].
  set (k := s ^ 2 / s' ^ 2). assert (Hk : 0 < k).
  { unfold k. assert (0 < s * s) by (apply Rsqr_pos_lt; auto). assert (0 < s' * s') by (apply Rsqr_pos_lt; auto).
    apply Rdiv_lt_0_compat; simpl; lra. }
  assert (Hck : forall a b, (0 <= a < ny)%Z -> (0 <= b < nx)%Z -> g2 c' a b = k * g2 c a b).
  { intros a b Ha Hb. destruct (V a b Ha Hb) as [_ [_ ->]]. destruct (V' a b Ha Hb) as [_ [_ ->]]. unfold chi2_of.
    change (pixel_sum ny nx) with (sum2 ny nx). rewrite <- sum2_scal. apply sum2_ext. intros i j Hi Hj. cbn [sigma_of].
    unfold k. change (used_image zm (ErrScalar s') ) with (used_image zm (ErrScalar s)). field. auto. }
  assert (Hmono : forall x y, x < y <-> k * x < k * y).
  { intros x y. split; intros H; [apply Rmult_lt_compat_l; auto|apply Rmult_lt_reg_l in H; auto]. }
  assert (K := chi2_shift_ok e im1 im2 (ErrScalar s) us BWrap nt np zm nf re rc mas mns huge ny nx c t1 t2 t3 u s1 s2 t H1 Hy Hx E S1 W W1 W2 W3 Ht Ht0).
  assert (K' := chi2_shift_ok e im1 im2 (ErrScalar s') us BWrap nt np zm nf re rc mas mns huge ny nx c' t1' t2' t3' u s1 s2 t H1 Hy Hx E' S1' W' W1 W2 W3 Ht Ht0).
  rewrite (argmin2_mono ny nx (g2 c') (g2 c)) in K'; auto.
  2:{ intros a b a' b' Ha Hb Ha' Hb'. rewrite !Hck by auto. symmetry. apply Hmono. }
  destruct (argmin2 ny nx (g2 c)) as [ym xm]. cbv zeta in K, K'.
  destruct K as [ups [i [j [ylo [yhi [xlo [xhi [Ea [Su [Vu [X [xv [yv [Sx [Sy [Vx K]]]]]]]]]]]]]]]].
  destruct K' as [ups' [i' [j' [ylo' [yhi' [xlo' [xhi' [Ea' [Su' [Vu' [X' [xv' [yv' [Sx' [Sy' [Vx' K']]]]]]]]]]]]]]]].
  assert (EA : (i', j') = (i, j)).
  { rewrite Ea, Ea'. apply argmin2_mono; auto. intros a b a' b' Ha Hb Ha' Hb'.
    assert (T : forall p, trig_interpR [ny; nx] (get c') p = k * trig_interpR [ny; nx] (get c) p).
    { intros p. rewrite <- tiR_scal. apply tiR_ext. intros y Hin. apply inb2' in Hin. destruct Hin as [q [l [-> [Hq Hl]]]]. apply (Hck q l Hq Hl). }
    rewrite !T. symmetry. apply Hmono. }
  injection EA as -> ->. eexists. eexists. eexists. eexists. split; [rewrite K; reflexivity|rewrite K'; reflexivity].
Qed.
Print Assumptions C43_error_scale_keeps_shift.

(** nfitted, max_nsig and max_auto_size play no role when the factor is given *)
Theorem C43_nfitted_unused_with_factor :
  forall e im1 im2 err us b nthreads use_np zeromean nf nf' verbose ret_err ret_arr mas mas' mns mns' allow_huge,
  us <> UAuto ->
  chi2_shift e im1 im2 err us b nthreads use_np zeromean nf verbose ret_err ret_arr mas mns allow_huge =
  chi2_shift e im1 im2 err us b nthreads use_np zeromean nf' verbose ret_err ret_arr mas' mns' allow_huge.
Proof. intros. destruct us; [congruence|reflexivity|reflexivity]. Qed.
Print Assumptions C43_nfitted_unused_with_factor.

(** a factor of 0 and a float factor of at least the image height raise *)
Theorem C43_bad_factor_raises :
  forall e im1 im2 err nthreads use_np zeromean nfitted verbose ret_err ret_arr mas mns allow_huge ny nx r,
  shape im1 = [ny; nx] -> shape im2 = [ny; nx] -> (0 < ny)%Z -> (0 < nx)%Z -> err_ok err ny nx -> size_ok e allow_huge ny nx ->
  IZR ny <= r ->
  chi2_shift e im1 im2 err (UInt 0) BWrap nthreads use_np zeromean nfitted verbose ret_err ret_arr mas mns allow_huge = Raise ZeroDivisionError /\
  chi2_shift e im1 im2 err (UFloat r) BWrap nthreads use_np zeromean nfitted verbose ret_err ret_arr mas mns allow_huge = Raise TypeError.
Proof.
  intros e im1 im2 err nt np zm nf vb re rc mas mns huge ny nx r H1 H2 Hy Hx He Hh Hr.
  destruct (chi2n_map_ok e im1 im2 err nt zm np true false huge ny nx H1 H2 Hy Hx He Hh ltac:(discriminate)) as [c [t1 [t2 [t3 [E [S1 _]]]]]].
  assert (0 < IZR ny) by (apply IZR_lt; auto).
  unfold chi2_shift, chi2_shift_tail. rewrite E. cbn [bind]. rewrite H1. destruct (argmin2 ny nx (g2 c)) as [ym xm].
  unfold explicit_window. split.
  - unfold pydiv. destruct (Req_EM_T 0 0) as [_|C]; [reflexivity|congruence].
  - rewrite pydiv_ok by lra. cbn [bind]. destruct (Rle_dec (IZR ny / r) 1) as [_|D]; [reflexivity|].
    exfalso. apply D. apply (Rmult_le_reg_r r); [lra|]. replace (IZR ny / r * r) with (IZR ny) by (field; lra). lra.
Qed.
Print Assumptions C43_bad_factor_raises.

Example C43_nonvacuous : let im := mk2 3 4 (fun y x => if (y =? 0)%Z then NaN else Fin (IZR (y * x))) in
  explicit_grid (UInt 2) 3 4 2 3 4 /\ get (add_const 5 im) [1; 2]%Z = Fin 7 /\ get (add_const 5 im) [0; 2]%Z = NaN /\
  one_sigma (Env false (2 ^ 30) true (fun _ _ => Fin 2)) 2.
Proof.
  cbv zeta. split; [repeat split; lia|]. split; [cbn [add_const amap get mk2 Z.eqb]; f_equal; simpl; lra|]. split; [reflexivity|].
  split; [lra|reflexivity].
Qed.

(** *** C40: the automatic factor *)
Lemma NoDup_map_inj {A B} (f : A -> B) l : (forall a b, f a = f b -> a = b) -> NoDup l -> NoDup (map f l).
Proof.
  intros Hf H. induction H as [|a l Hn H IH]; simpl; constructor; auto.
  intros Hin. apply in_map_iff in Hin. destruct Hin as [b [E Hb]]. apply Hf in E. subst. contradiction.
Qed.
Lemma NoDup_append {A} (l m : list A) : NoDup l -> NoDup m -> (forall a, In a l -> ~ In a m) -> NoDup (l ++ m).
Proof.
  intros Hl Hm Hd. induction Hl as [|a l Hn H IH]; simpl; auto. constructor.
  - intros Hin. apply in_app_iff in Hin. destruct Hin; [contradiction|]. apply (Hd a); [left|]; auto.
  - apply IH. intros b Hb. apply Hd. right; auto.
Qed.
Lemma zrange_NoDup n : NoDup (zrange n).
Proof. unfold zrange. apply NoDup_map_inj; [intros a b H; lia|apply seq_NoDup]. Qed.
Lemma pixels_NoDup ny nx : NoDup (pixels ny nx).
Proof.
  unfold pixels. assert (Q := zrange_NoDup ny). induction (zrange ny) as [|y l IH]; simpl; [constructor|].
  inversion Q as [|? ? Q1 Q2]; subst. apply NoDup_append; auto.
  - apply NoDup_map_inj; [intros a b H; congruence|apply zrange_NoDup].
  - intros [a b] Ha Hb. apply in_map_iff in Ha. destruct Ha as [x [E _]]. injection E as <- <-.
    apply in_flat_map in Hb. destruct Hb as [z [Hz Hin]]. apply in_map_iff in Hin. destruct Hin as [x' [E' _]]. injection E' as -> _. contradiction.
Qed.

Lemma fold_minZ l : forall x, In (fold_left Z.min l x) (x :: l) /\ forall y, In y (x :: l) -> (fold_left Z.min l x <= y)%Z.
Proof.
  induction l as [|a l IH]; intros x; simpl.
  - split; auto. intros y [->|[]]. lia.
  - destruct (IH (Z.min x a)) as [A B]. split.
    + destruct A as [A|A]; [|auto]. rewrite <- A. destruct (Z.min_spec x a) as [[_ ->]|[_ ->]]; auto.
    + intros y Hy. assert (fold_left Z.min l (Z.min x a) <= Z.min x a)%Z by (apply B; left; auto).
      destruct Hy as [->|[->|Hy]]; [lia|lia|]. apply B. right; auto.
Qed.
Lemma fold_maxZ l : forall x, In (fold_left Z.max l x) (x :: l) /\ forall y, In y (x :: l) -> (y <= fold_left Z.max l x)%Z.
Proof.
  induction l as [|a l IH]; intros x; simpl.
  - split; auto. intros y [->|[]]. lia.
  - destruct (IH (Z.max x a)) as [A B]. split.
    + destruct A as [A|A]; [|auto]. rewrite <- A. destruct (Z.max_spec x a) as [[_ ->]|[_ ->]]; auto.
    + intros y Hy. assert (Z.max x a <= fold_left Z.max l (Z.max x a))%Z by (apply B; left; auto).
      destruct Hy as [->|[->|Hy]]; [lia|lia|]. apply B. right; auto.
Qed.
Lemma spanZ_spec l : l <> [] -> (exists a b, In a l /\ In b l /\ spanZ l = a - b)%Z /\ forall a b, In a l -> In b l -> (Z.abs (a - b) <= spanZ l)%Z.
Proof.
  destruct l as [|x t]; [congruence|]. intros _. unfold spanZ.
  destruct (fold_maxZ t x) as [A B]. destruct (fold_minZ t x) as [A' B']. split; [eauto|].
  intros a b Ha Hb. assert (Q1 := B a Ha). assert (Q2 := B b Hb). assert (Q3 := B' a Ha). assert (Q4 := B' b Hb). lia.
Qed.

(** size is the larger side of the bounding box of the pixels P, or 1 if there is at most one such pixel *)
Definition is_region_size (P : Z -> Z -> Prop) (size : Z) : Prop :=
  ((forall y x y' x', P y x -> P y' x' -> y = y' /\ x = x') /\ size = 1)%Z \/
  ((1 <= size)%Z /\ (forall y x y' x', P y x -> P y' x' -> (Z.abs (y - y') <= size /\ Z.abs (x - x') <= size)%Z) /\
   exists y x y' x', P y x /\ P y' x' /\ (size = y - y' \/ size = x - x')%Z).

Lemma auto_size_spec e ny nx m mns nf :
  is_region_size (fun y x => (0 <= y < ny)%Z /\ (0 <= x < nx)%Z /\ ltn (m y x - min2 ny nx m) (m_auto e mns nf) = true) (auto_size e ny nx m mns nf).
Proof.
  unfold auto_size. set (lv := m_auto e mns nf). set (P := fun y x => _).
  assert (HP : forall y x, In (y, x) (area ny nx m lv) <-> P y x).
  { intros y x. unfold area, P. rewrite filter_In, pixels_In. cbn [fst snd]. tauto. }
  assert (ND : NoDup (area ny nx m lv)) by (apply NoDup_filter, pixels_NoDup).
  destruct (Z.ltb_spec 1 (Z.of_nat (length (area ny nx m lv)))) as [L|L].
  - right. assert (Hne : area ny nx m lv <> []) by (intros E; rewrite E in L; simpl in L; lia).
    assert (Hf : map fst (area ny nx m lv) <> []) by (destruct (area ny nx m lv); [congruence|discriminate]).
    assert (Hsn : map snd (area ny nx m lv) <> []) by (destruct (area ny nx m lv); [congruence|discriminate]).
    destruct (spanZ_spec _ Hf) as [[a [b [Ia [Ib Eab]]]] Bf]. destruct (spanZ_spec _ Hsn) as [[c [d [Ic [Id Ecd]]]] Bs].
    assert (Ball : forall y x y' x', P y x -> P y' x' -> (Z.abs (y - y') <= spanZ (map fst (area ny nx m lv)) /\ Z.abs (x - x') <= spanZ (map snd (area ny nx m lv)))%Z).
    { intros y x y' x' H H'. apply HP in H, H'. split; [apply Bf|apply Bs].
      - apply (in_map fst _ _ H). - apply (in_map fst _ _ H'). - apply (in_map snd _ _ H). - apply (in_map snd _ _ H'). }
    split; [|split].
    + (* two distinct pixels *)
      destruct (area ny nx m lv) as [|[y x] [|[y' x'] l]] eqn:Ea; simpl in L; [lia|lia|].
      inversion ND as [|? ? N1 N2]; subst.
      assert (B0 := Ball y x y' x' ltac:(apply HP; left; auto) ltac:(apply HP; right; left; auto)).
      assert (~ (y = y' /\ x = x')) by (intros [-> ->]; apply N1; left; auto). lia.
    + intros y x y' x' H H'. destruct (Ball y x y' x' H H'). lia.
    + apply in_map_iff in Ia, Ib, Ic, Id. destruct Ia as [[ya xa] [<- Ia]]. destruct Ib as [[yb xb] [<- Ib]].
      destruct Ic as [[yc xc] [<- Ic]]. destruct Id as [[yd xd] [<- Id]]. cbn [fst snd] in *.
      destruct (Z.max_spec (spanZ (map snd (area ny nx m lv))) (spanZ (map fst (area ny nx m lv)))) as [[_ ->]|[_ ->]].
      * exists ya, xa, yb, xb. split; [apply HP; auto|]. split; [apply HP; auto|]. auto.
      * exists yc, xc, yd, xd. split; [apply HP; auto|]. split; [apply HP; auto|]. auto.
  - left. split; [|reflexivity]. intros y x y' x' H H'. apply HP in H, H'.
    destruct (area ny nx m lv) as [|p [|q l]]; simpl in *; [tauto| |lia].
    destruct H as [->|[]]. destruct H' as [H'|[]]. injection H' as -> ->. auto.
Qed.

Theorem C40_auto_never_fails :
  forall e im1 im2 err nthreads use_np zeromean nfitted ret_err ret_arr mas mns allow_huge ny nx t,
  shape im1 = [ny; nx] -> shape im2 = [ny; nx] -> (0 < ny)%Z -> (0 < nx)%Z -> err_ok err ny nx -> size_ok e allow_huge ny nx ->
  (1 <= mas)%Z -> one_sigma e t ->
  exists map0 t1 t2 t3 ym xm size u x y rest i j,
    chi2n_map e im1 im2 err BWrap nthreads zeromean use_np true false allow_huge = Ok (Chi2All map0 t1 t2 t3) /\
    is_argmin2 ny nx (g2 map0) (ym, xm) /\
    (* size of the region below the auto level, at least 1 *)
    (1 <= size)%Z /\
    is_region_size (fun y x => match (if e_scipy e then e_ppf e mns nfitted else Fin (26088233328527037 / 10000000000000000)) with
                               | Fin lv => near_min ny nx (g2 map0) ym xm lv y x | NaN => False end) size /\
    u = Rmax 1 (IZR mas / 2 / IZR size) /\
    chi2_shift e im1 im2 err UAuto BWrap nthreads use_np zeromean nfitted false ret_err ret_arr mas mns allow_huge =
      Ok (RNum x :: RNum y :: rest) /\
    (0 <= i < mas)%Z /\ (0 <= j < mas)%Z /\ y = grid_shift ny ym mas u i /\ x = grid_shift nx xm mas u j /\
    (forall a b, (0 <= a < mas)%Z -> (0 <= b < mas)%Z ->
       chi2_at ny nx map0 y x <= chi2_at ny nx map0 (grid_shift ny ym mas u a) (grid_shift nx xm mas u b)) /\
    ((2 * size <= mas)%Z -> (IZR mas - 1) / u = (IZR mas - 1) / IZR mas * (2 * IZR size)).
Proof.
  intros e im1 im2 err nt np zm nf re rc mas mns huge ny nx t H1 H2 Hy Hx He Hh Hm Ht.
  destruct (chi2n_map_ok e im1 im2 err nt zm np true false huge ny nx H1 H2 Hy Hx He Hh ltac:(discriminate)) as [c [t1 [t2 [t3 [E [S1 _]]]]]].
  set (size := auto_size e ny nx (g2 c) mns nf).
  assert (Hsz := auto_size_spec e ny nx (g2 c) mns nf). fold size in Hsz.
  assert (Hs1 : (1 <= size)%Z) by (destruct Hsz as [[_ ->]|[G _]]; [lia|auto]).
  assert (Hsp : 1 <= IZR size) by (apply IZR_le; auto).
  assert (Hmp : 1 <= IZR mas) by (apply IZR_le; auto).
  set (u := Rmax 1 (IZR mas / 2 / IZR size)).
  assert (Hu : 1 <= u) by apply Rmax_l.
  assert (W : window e UAuto ny nx (g2 c) mas mns nf = Ok (u, [mas; mas])).
  { unfold window, auto_factor. fold size. rewrite pydiv_ok by lra. cbn [bind]. f_equal. f_equal. unfold u.
    destruct (Rlt_dec (IZR mas / 2 / IZR size) 1); [rewrite Rmax_left by lra|rewrite Rmax_right by lra]; reflexivity. }
  destruct (call_facts e im1 im2 err UAuto nt np zm nf re rc mas mns huge ny nx c t1 t2 t3 u mas mas t) as [ym [xm [x [y [rest [i [j F]]]]]]]; auto; try lia; try lra.
  destruct F as [Fa [Fc [Fi [Fj [Fy [Fx Fm]]]]]].
  exists c, t1, t2, t3, ym, xm, size, u, x, y, rest, i, j.
  split; [exact E|]. split; [exact Fa|]. split; [exact Hs1|]. split.
  { assert (Em : min2 ny nx (g2 c) = g2 c ym xm).
    { unfold min2. rewrite (is_argmin2_unique ny nx (g2 c) _ (ym, xm) (argmin2_spec ny nx (g2 c) Hy Hx) Fa). reflexivity. }
    assert (W' : forall y x, (match (if e_scipy e then e_ppf e mns nf else Fin (26088233328527037 / 10000000000000000)) with
                               | Fin lv => near_min ny nx (g2 c) ym xm lv y x | NaN => False end) <->
       ((0 <= y < ny)%Z /\ (0 <= x < nx)%Z /\ ltn (g2 c y x - min2 ny nx (g2 c)) (m_auto e mns nf) = true)).
    { intros y0 x0. unfold m_auto. destruct (if e_scipy e then _ else _) as [lv|]; cbn [ltn]; [|intuition discriminate].
      unfold near_min. rewrite Em. destruct (Rlt_dec (g2 c y0 x0 - g2 c ym xm) lv); intuition (try lra; try discriminate). }
    destruct Hsz as [[A B]|[A [B [a [b [a' [b' [D1 [D2 D3]]]]]]]]].
    - left. split; [|exact B]. intros y0 x0 y1 x1 P Q. apply A; apply W'; auto.
    - right. split; [exact A|]. split; [intros y0 x0 y1 x1 P Q; apply B; apply W'; auto|].
      exists a, b, a', b'. split; [apply W'; auto|]. split; [apply W'; auto|auto]. }
  split; [reflexivity|]. split; [exact Fc|]. split; [exact Fi|]. split; [exact Fj|]. split; [exact Fy|]. split; [exact Fx|]. split; [exact Fm|].
  intros Hle. assert (1 <= IZR mas / 2 / IZR size).
  { apply IZR_le in Hle. rewrite mult_IZR in Hle. apply (Rmult_le_reg_r (2 * IZR size)); [lra|].
    replace (IZR mas / 2 / IZR size * (2 * IZR size)) with (IZR mas) by (field; lra). lra. }
  unfold u. rewrite Rmax_right by auto. field. lra.
Qed.
Print Assumptions C40_auto_never_fails.

(** without enough valid choices the automatic factor is clipped to 1 *)
Lemma clipped_factor :
  forall size mas, (1 <= size)%Z -> (mas < 2 * size)%Z -> (1 <= mas)%Z -> Rmax 1 (IZR mas / 2 / IZR size) = 1.
Proof.
  intros size mas Hs Hm H1. apply Rmax_left. assert (1 <= IZR size) by (apply IZR_le; auto). apply IZR_lt in Hm. rewrite mult_IZR in Hm.
  apply (Rmult_le_reg_r (2 * IZR size)); [lra|]. replace (IZR mas / 2 / IZR size * (2 * IZR size)) with (IZR mas) by (field; lra). lra.
Qed.

Example C40_nonvacuous : is_region_size (fun y x => (0 <= y < 2 /\ 1 <= x < 5)%Z) 3 /\ Rmax 1 (IZR 512 / 2 / IZR 3) = 256 / 3.
Proof.
  split; [|rewrite Rmax_right; lra]. right. split; [lia|]. split; [lia|]. exists 0%Z, 4%Z, 0%Z, 1%Z. lia.
Qed.
