(** Properties C38, C39, C41: chi2_shift, location of the minimum *)
From Coq Require Import ZArith Lia List Reals Lra Bool.
From Coquelicot Require Import Complex.
From Verif Require Import Base NDim DFT Kernel Py M_fast_ffts M_shift M_scale M_zoom M_downsample M_convolve M_correlate Arg M_chi2
  Spec L_shift L_scale L_zoom L_convolve Sum2 Spec2 L_correlate L_chi2 P_chi2map L_chi2shift L_fshift.
Import ListNotations.
Open Scope R_scope.

(** t is the 1-sigma delta-chi2 level used for the error bars: scipy's value, or 1.59358435 without scipy *)
Definition one_sigma (e : env) (t : R) : Prop :=
  0 < t /\ (if e_scipy e then e_ppf e 1 2 = Fin t else t = 159358435 / 100000000).

(** window (s1 x s2 nodes) and factor u for an explicit upsample_factor: an int below the image height or a float below
    it zooms into the full shape, a larger int u into 2u x 2u *)
Definition explicit_grid (us : usarg) (ny nx : Z) (u : R) (s1 s2 : Z) : Prop :=
  match us with
  | UInt k => u = IZR k /\ (0 < k)%Z /\ (if (k <? ny)%Z then s1 = ny /\ s2 = nx else (s1 = 2 * k /\ s2 = 2 * k)%Z)
  | UFloat r => u = r /\ 0 < r < IZR ny /\ s1 = ny /\ s2 = nx
  | UAuto => False
  end.

(** shift represented by node i of an s-node axis with spacing 1/u, on an axis of n pixels with coarse minimum at pixel m *)
Definition grid_shift (n m s : Z) (u : R) (i : Z) : R :=
  IZR ((n - 1) / 2) - (IZR m + (if Z.even n then 1 / 2 else 0) + (IZR i - (IZR s - 1) / 2) / u).

(** chi2 map interpolated at shift (ty, tx) *)
Definition chi2_at (ny nx : Z) (map0 : arr R) (ty tx : R) : R :=
  trig_interpR [ny; nx] (get map0) [IZR ((ny - 1) / 2) - ty; IZR ((nx - 1) / 2) - tx].

Lemma one_sigma_thr e t : one_sigma e t -> sigma_to_chi2 e 1 2 = Ok (Fin t) /\ 0 < t.
Proof.
  unfold one_sigma, sigma_to_chi2, powlaw. intros [Ht H]. split; [|exact Ht]. destruct (e_scipy e).
  - destruct (Rlt_dec 1 8); [rewrite H; reflexivity|lra].
  - destruct (Rlt_dec 1 0); [lra|]. destruct (Req_EM_T 1 0); [lra|].
    unfold Rpower. rewrite ln_1, Rmult_0_r, exp_0, Rmult_1_r, H. reflexivity.
Qed.

Lemma node_grid n m s u i : node n m s u i = grid_shift n m s u i.
Proof. unfold node, grid_shift, grid_at. rewrite cen_int, zcen_val. reflexivity. Qed.

Lemma explicit_window_ok e us ny nx u s1 s2 chi2 mas mns nf : (0 < ny)%Z -> (0 < nx)%Z -> explicit_grid us ny nx u s1 s2 ->
  window e us ny nx chi2 mas mns nf = Ok (u, [s1; s2]) /\ 0 < u /\ (0 < s1)%Z /\ (0 < s2)%Z.
Proof.
  intros Hy Hx H. destruct us as [|k|r]; cbn [explicit_grid] in H; [contradiction| |].
  - destruct H as [-> [Hk H]]. assert (0 < IZR k) by (apply IZR_lt; auto). unfold window, explicit_window.
    rewrite pydiv_ok by lra. cbn [bind]. destruct (Z.ltb_spec k ny) as [L|L].
    + destruct H as [-> ->]. apply IZR_lt in L. destruct (Rle_dec (IZR ny / IZR k) 1) as [D|D]; [|auto].
      exfalso. apply (Rmult_le_compat_r (IZR k)) in D; [|lra]. replace (IZR ny / IZR k * IZR k) with (IZR ny) in D by (field; lra). lra.
    + destruct H as [-> ->]. apply IZR_le in L. destruct (Rle_dec (IZR ny / IZR k) 1) as [D|D]; [repeat split; auto; lia|].
      exfalso. apply D. apply (Rmult_le_reg_r (IZR k)); [lra|]. replace (IZR ny / IZR k * IZR k) with (IZR ny) by (field; lra). lra.
  - destruct H as [-> [Hr [-> ->]]]. unfold window, explicit_window. rewrite pydiv_ok by lra. cbn [bind].
    destruct (Rle_dec (IZR ny / r) 1) as [D|D]; [|repeat split; auto; lra].
    exfalso. apply (Rmult_le_compat_r r) in D; [|lra]. replace (IZR ny / r * r) with (IZR ny) in D by (field; lra). lra.
Qed.

(** everything about a successful call with a given window *)
Lemma call_facts e im1 im2 err us nt np zm nf re rc mas mns huge ny nx chi2 t1 t2 t3 u s1 s2 t :
  shape im1 = [ny; nx] -> (0 < ny)%Z -> (0 < nx)%Z ->
  chi2n_map e im1 im2 err BWrap nt zm np true false huge = Ok (Chi2All chi2 t1 t2 t3) -> shape chi2 = [ny; nx] ->
  window e us ny nx (g2 chi2) mas mns nf = Ok (u, [s1; s2]) -> 0 < u -> (0 < s1)%Z -> (0 < s2)%Z -> one_sigma e t ->
  exists ym xm dx dy rest i j,
    is_argmin2 ny nx (g2 chi2) (ym, xm) /\
    chi2_shift e im1 im2 err us BWrap nt np zm nf false re rc mas mns huge = Ok (RNum dx :: RNum dy :: rest) /\
    (0 <= i < s1)%Z /\ (0 <= j < s2)%Z /\ dy = grid_shift ny ym s1 u i /\ dx = grid_shift nx xm s2 u j /\
    (forall a b, (0 <= a < s1)%Z -> (0 <= b < s2)%Z ->
       chi2_at ny nx chi2 dy dx <= chi2_at ny nx chi2 (grid_shift ny ym s1 u a) (grid_shift nx xm s2 u b)).
Proof.
  intros Hs Hy Hx Hmap Hsc Hw Hu H1 H2 Ht. apply one_sigma_thr in Ht. destruct Ht as [Ht Ht0].
  assert (K := chi2_shift_ok e im1 im2 err us BWrap nt np zm nf re rc mas mns huge ny nx chi2 t1 t2 t3 u s1 s2 t Hs Hy Hx Hmap Hsc Hw Hu H1 H2 Ht Ht0).
  assert (Sa := argmin2_spec ny nx (g2 chi2) Hy Hx).
  destruct (argmin2 ny nx (g2 chi2)) as [ym xm]. cbv zeta in K.
  destruct K as [ups [i [j [ylo [yhi [xlo [xhi [Ea [_ [_ [_ [xv [yv [_ [_ [_ K]]]]]]]]]]]]]]]].
  set (M := fun i j => trig_interpR [ny; nx] (get chi2) [grid_at (zcen ny ym) u s1 i; grid_at (zcen nx xm) u s2 j]) in *.
  assert (Sb := argmin2_spec s1 s2 M H1 H2). rewrite <- Ea in Sb. destruct Sb as [B1 [B2 [B3 _]]]. cbn [fst snd] in *.
  assert (EM : forall a b, chi2_at ny nx chi2 (grid_shift ny ym s1 u a) (grid_shift nx xm s2 u b) = M a b).
  { intros a b. unfold chi2_at, M. rewrite <- !node_grid. unfold node. rewrite !cen_int. f_equal. f_equal; [|f_equal]; ring. }
  exists ym, xm, (grid_shift nx xm s2 u j), (grid_shift ny ym s1 u i). eexists. exists i, j.
  split; [exact Sa|]. split; [rewrite K, !node_grid; reflexivity|].
  split; [auto|]. split; [auto|]. split; [auto|]. split; [auto|]. intros a b Ha Hb. rewrite !EM. apply B3; auto.
Qed.

(** *** C39: the shift is a grid node that minimises the interpolated chi2 over the whole grid *)
Theorem C39_minimum_on_grid :
  forall e im1 im2 err us nthreads use_np zeromean nfitted ret_err ret_arr mas mns allow_huge ny nx u s1 s2 t,
  shape im1 = [ny; nx] -> shape im2 = [ny; nx] -> (0 < ny)%Z -> (0 < nx)%Z -> err_ok err ny nx -> size_ok e allow_huge ny nx ->
  explicit_grid us ny nx u s1 s2 -> one_sigma e t ->
  exists map0 t1 t2 t3 ym xm dx dy rest i j,
    chi2n_map e im1 im2 err BWrap nthreads zeromean use_np true false allow_huge = Ok (Chi2All map0 t1 t2 t3) /\
    is_argmin2 ny nx (g2 map0) (ym, xm) /\
    chi2_shift e im1 im2 err us BWrap nthreads use_np zeromean nfitted false ret_err ret_arr mas mns allow_huge =
      Ok (RNum dx :: RNum dy :: rest) /\
    (0 <= i < s1)%Z /\ (0 <= j < s2)%Z /\ dy = grid_shift ny ym s1 u i /\ dx = grid_shift nx xm s2 u j /\
    (forall a b, (0 <= a < s1)%Z -> (0 <= b < s2)%Z ->
       chi2_at ny nx map0 dy dx <= chi2_at ny nx map0 (grid_shift ny ym s1 u a) (grid_shift nx xm s2 u b)).
Proof.
  intros e im1 im2 err us nt np zm nf re rc mas mns huge ny nx u s1 s2 t H1 H2 Hy Hx He Hh Hg Ht.
  destruct (chi2n_map_ok e im1 im2 err nt zm np true false huge ny nx H1 H2 Hy Hx He Hh ltac:(discriminate)) as [c [t1 [t2 [t3 [E [S1 _]]]]]].
  destruct (explicit_window_ok e us ny nx u s1 s2 (g2 c) mas mns nf Hy Hx Hg) as [W [W1 [W2 W3]]].
  destruct (call_facts e im1 im2 err us nt np zm nf re rc mas mns huge ny nx c t1 t2 t3 u s1 s2 t) as [ym [xm [dx [dy [rest [i [j F]]]]]]]; auto.
  exists c, t1, t2, t3, ym, xm, dx, dy, rest, i, j. split; [exact E|exact F].
Qed.
Print Assumptions C39_minimum_on_grid.

(** interpolated chi2 versus the chi2 of the Fourier-shifted reference, constant errors *)
Lemma map_interp e im1 im2 err s nt zm np huge ny nx chi2 t1 t2 t3 :
  shape im1 = [ny; nx] -> shape im2 = [ny; nx] -> (0 < ny)%Z -> (0 < nx)%Z -> size_ok e huge ny nx ->
  (err = ErrNone /\ s = 1 \/ err = ErrScalar s /\ s <> 0) ->
  chi2n_map e im1 im2 err BWrap nt zm np true false huge = Ok (Chi2All chi2 t1 t2 t3) ->
  shape chi2 = [ny; nx] /\
  (forall k l, (0 <= k < ny)%Z -> (0 <= l < nx)%Z -> g2 chi2 k l =
     chi2_of ny nx (prep zm im1 ny nx) (prep zm im2 ny nx) (fun _ _ => s) ((ny - 1) / 2 - k) ((nx - 1) / 2 - l)) /\
  forall ty tx, chi2c ny nx (prep zm im1 ny nx) (prep zm im2 ny nx) s ty tx <= chi2_at ny nx chi2 ty tx /\
    (Z.odd ny = true -> Z.odd nx = true -> chi2_at ny nx chi2 ty tx = chi2c ny nx (prep zm im1 ny nx) (prep zm im2 ny nx) s ty tx).
Proof.
  intros H1 H2 Hy Hx Hh Hs Hmap.
  destruct (C34_scalar_error e im1 im2 err s nt zm np true huge ny nx H1 H2 Hy Hx Hh Hs) as [r [Er [Sr Vr]]].
  rewrite Hmap in Er. injection Er as <-. cbn [chi2_of_res] in Sr, Vr.
  assert (s <> 0) by (destruct Hs as [[_ ->]|[_ ?]]; [lra|auto]).
  set (P1 := prep zm im1 ny nx) in *. set (P2 := prep zm im2 ny nx) in *.
  split; [exact Sr|]. split; [exact Vr|]. intros ty tx.
  assert (E : chi2_at ny nx chi2 ty tx = chi2c ny nx P1 P2 s ty tx +
     (sum2 ny nx (fun i j => (P1 i j) ^ 2) - sum2 ny nx (fun i j => (fshift ny nx P1 ty tx i j) ^ 2)) / s ^ 2).
  { unfold chi2_at.
    rewrite (tiR_ext _ _ (img2 (fun k l => chi2_of ny nx P1 P2 (fun _ _ => s) ((ny - 1) / 2 - k) ((nx - 1) / 2 - l)))).
    2:{ intros y Hin. apply inb2' in Hin. destruct Hin as [k [l [-> [Hk Hl]]]]. cbn [img2]. rewrite <- Vr by auto. reflexivity. }
    rewrite interp_chi2 by auto.
    replace (IZR ((ny - 1) / 2) - (IZR ((ny - 1) / 2) - ty)) with ty by ring.
    replace (IZR ((nx - 1) / 2) - (IZR ((nx - 1) / 2) - tx)) with tx by ring. reflexivity. }
  destruct (fshift_energy ny nx P1 ty tx Hy Hx) as [En Eo].
  assert (Hs2 : 0 < / s ^ 2) by (apply Rinv_0_lt_compat; assert (0 < s * s) by (apply Rsqr_pos_lt; auto); simpl; lra).
  split.
  - rewrite E. unfold Rdiv. assert (0 <= (sum2 ny nx (fun i j => P1 i j ^ 2) - sum2 ny nx (fun i j => fshift ny nx P1 ty tx i j ^ 2)) * / s ^ 2).
    { apply Rmult_le_pos; lra. } lra.
  - intros Oy Ox. rewrite E, Eo by auto. unfold Rdiv. ring.
Qed.

(** for odd image sizes the interpolated chi2 is the chi2 of im2 against the Fourier-shifted im1, so the result is the
    true least-squares shift over the grid *)
Theorem C39_least_squares_over_grid :
  forall e im1 im2 err s us nthreads use_np zeromean nfitted ret_err ret_arr mas mns allow_huge ny nx u s1 s2 t,
  shape im1 = [ny; nx] -> shape im2 = [ny; nx] -> (0 < ny)%Z -> (0 < nx)%Z -> size_ok e allow_huge ny nx ->
  (err = ErrNone /\ s = 1 \/ err = ErrScalar s /\ s <> 0) -> Z.odd ny = true -> Z.odd nx = true ->
  explicit_grid us ny nx u s1 s2 -> one_sigma e t ->
  let f1 := prep zeromean im1 ny nx in let f2 := prep zeromean im2 ny nx in
  exists ym xm dx dy rest,
    (0 <= ym < ny)%Z /\ (0 <= xm < nx)%Z /\
    (forall k l, (0 <= k < ny)%Z -> (0 <= l < nx)%Z ->
       chi2_of ny nx f1 f2 (fun _ _ => s) ((ny - 1) / 2 - ym) ((nx - 1) / 2 - xm) <=
       chi2_of ny nx f1 f2 (fun _ _ => s) ((ny - 1) / 2 - k) ((nx - 1) / 2 - l)) /\
    chi2_shift e im1 im2 err us BWrap nthreads use_np zeromean nfitted false ret_err ret_arr mas mns allow_huge =
      Ok (RNum dx :: RNum dy :: rest) /\
    (exists i j, (0 <= i < s1)%Z /\ (0 <= j < s2)%Z /\ dy = grid_shift ny ym s1 u i /\ dx = grid_shift nx xm s2 u j) /\
    forall a b, (0 <= a < s1)%Z -> (0 <= b < s2)%Z ->
      chi2c ny nx f1 f2 s dy dx <= chi2c ny nx f1 f2 s (grid_shift ny ym s1 u a) (grid_shift nx xm s2 u b).
Proof.
  intros e im1 im2 err s us nt np zm nf re rc mas mns huge ny nx u s1 s2 t H1 H2 Hy Hx Hh Hs Oy Ox Hg Ht f1 f2.
  assert (He : err_ok err ny nx) by (destruct Hs as [[-> ->]|[-> H]]; simpl; auto).
  destruct (C39_minimum_on_grid e im1 im2 err us nt np zm nf re rc mas mns huge ny nx u s1 s2 t H1 H2 Hy Hx He Hh Hg Ht)
    as [c [t1 [t2 [t3 [ym [xm [dx [dy [rest [i [j [Em [Sa [Ec [Hi [Hj [Edy [Edx Hmin]]]]]]]]]]]]]]]]]].
  destruct (map_interp e im1 im2 err s nt zm np huge ny nx c t1 t2 t3 H1 H2 Hy Hx Hh Hs Em) as [Sc [Vc Ic]].
  destruct Sa as [A1 [A2 [A3 _]]]. cbn [fst snd] in *.
  exists ym, xm, dx, dy, rest. split; [auto|]. split; [auto|]. split.
  { intros k l Hk Hl. unfold f1, f2. rewrite <- !Vc by auto. apply A3; auto. }
  split; [exact Ec|]. split; [exists i, j; auto|]. intros a b Ha Hb.
  destruct (Ic dy dx) as [_ I1]. destruct (Ic (grid_shift ny ym s1 u a) (grid_shift nx xm s2 u b)) as [_ I2].
  unfold f1, f2. rewrite <- I1, <- I2 by auto. apply Hmin; auto.
Qed.
Print Assumptions C39_least_squares_over_grid.

(** *** C38: whole-pixel rolls *)
(** the true whole-pixel position is a node of the grid on an axis of n pixels zoomed to s nodes by the integer factor u *)
Definition hits_pixel (n u s : Z) : Prop :=
  if Z.odd n then Z.odd s = true else (Z.odd (u + s) = true /\ u < s)%Z.

Lemma hits_node n u s m : (0 < u)%Z -> (0 < s)%Z -> hits_pixel n u s ->
  exists i, (0 <= i < s)%Z /\ grid_shift n m s (IZR u) i = IZR ((n - 1) / 2 - m).
Proof.
  unfold hits_pixel, grid_shift. intros Hu Hs H. rewrite <- Z.negb_odd. assert (0 < IZR u) by (apply IZR_lt; auto).
  destruct (Z.odd n) eqn:E; cbn [negb].
  - apply Z.odd_spec in H. destruct H as [k Hk]. exists k. split; [lia|]. subst s. rewrite minus_IZR, plus_IZR, mult_IZR. field. lra.
  - destruct H as [H Hlt]. apply Z.odd_spec in H. destruct H as [k Hk]. exists (k - u)%Z. split; [lia|].
    replace s with (2 * k + 1 - u)%Z by lia. rewrite !minus_IZR, plus_IZR, mult_IZR. field. lra.
Qed.

Lemma grid_shift_near n m s u i : 0 < u -> (0 <= i < s)%Z ->
  Rabs (grid_shift n m s u i - IZR ((n - 1) / 2 - m)) <= (IZR s - 1) / 2 / u + (if Z.even n then 1 / 2 else 0).
Proof.
  intros Hu Hi. unfold grid_shift. rewrite (minus_IZR _ m).
  assert (B : Rabs ((IZR i - (IZR s - 1) / 2) / u) <= (IZR s - 1) / 2 / u).
  { unfold Rdiv at 1. rewrite Rabs_mult, (Rabs_pos_eq (/ u)) by (apply Rlt_le, Rinv_0_lt_compat; auto).
    apply Rmult_le_compat_r; [apply Rlt_le, Rinv_0_lt_compat; auto|].
    assert (0 <= IZR i) by (apply IZR_le; lia). assert (IZR i <= IZR s - 1) by (rewrite <- minus_IZR; apply IZR_le; lia).
    apply Rabs_le. lra. }
  set (w := (IZR i - (IZR s - 1) / 2) / u) in *.
  replace (IZR ((n - 1) / 2) - (IZR m + (if Z.even n then 1 / 2 else 0) + w) - (IZR ((n - 1) / 2) - IZR m))
    with (- (w + (if Z.even n then 1 / 2 else 0))) by ring.
  rewrite Rabs_Ropp. eapply Rle_trans; [apply Rabs_triang|]. apply Rplus_le_compat; [exact B|].
  destruct (Z.even n); [rewrite Rabs_pos_eq; lra|rewrite Rabs_R0; lra].
Qed.

Lemma chi2_of_roll_zero zm im1 im2 ny nx dy dx s : is_roll im1 im2 ny nx dy dx -> (0 < ny)%Z -> (0 < nx)%Z ->
  forall sy sx, ((sy - dy) mod ny = 0)%Z -> ((sx - dx) mod nx = 0)%Z ->
  chi2_of ny nx (prep zm im1 ny nx) (prep zm im2 ny nx) (fun _ _ => s) sy sx = 0.
Proof.
  intros Hr Hy Hx sy sx Ey Ex. apply sum2_const0. intros i j Hi Hj. rewrite (prep_roll zm im1 im2 ny nx dy dx) by auto.
  assert (C : forall n a b c, (0 < n)%Z -> ((b - c) mod n = 0)%Z -> ((a - b) mod n = (a - c) mod n)%Z).
  { intros n a b c Hn E. replace (a - c)%Z with ((a - b) + (b - c))%Z by lia. rewrite Zplus_mod, E, Z.add_0_r, Zmod_mod. reflexivity. }
  rewrite (C ny i sy dy), (C nx j sx dx) by auto. unfold Rdiv. ring.
Qed.

Theorem C38_roll_reproduced :
  forall e im1 im2 err s u nthreads use_np zeromean nfitted ret_err ret_arr mas mns allow_huge ny nx dy dx s1 s2 t,
  is_roll im1 im2 ny nx dy dx -> (0 < ny)%Z -> (0 < nx)%Z -> size_ok e allow_huge ny nx ->
  (err = ErrNone /\ s = 1 \/ err = ErrScalar s /\ s <> 0) ->
  explicit_grid (UInt u) ny nx (IZR u) s1 s2 -> hits_pixel ny u s1 -> hits_pixel nx u s2 -> one_sigma e t ->
  exists x y rest,
    chi2_shift e im1 im2 err (UInt u) BWrap nthreads use_np zeromean nfitted false ret_err ret_arr mas mns allow_huge =
      Ok (RNum x :: RNum y :: rest) /\
    (* Fourier-shifting im1 by the result gives im2 *)
    (forall i j, (0 <= i < ny)%Z -> (0 <= j < nx)%Z ->
       fshift ny nx (prep zeromean im1 ny nx) y x i j = prep zeromean im2 ny nx i j) /\
    (* and if no other shift of im1 does, the result is the roll, reduced to the centred range *)
    (no_real_symmetry ny nx (prep zeromean im1 ny nx) ->
       y = IZR ((ny - 1) / 2 - ((ny - 1) / 2 - dy) mod ny) /\ x = IZR ((nx - 1) / 2 - ((nx - 1) / 2 - dx) mod nx)).
Proof.
  intros e im1 im2 err s u nt np zm nf re rc mas mns huge ny nx dy dx s1 s2 t Hr Hy Hx Hh Hs Hg Hhy Hhx Ht.
  assert (He : err_ok err ny nx) by (destruct Hs as [[-> ->]|[-> H]]; simpl; auto).
  assert (Hr' := Hr). destruct Hr' as [H1 [H2 _]].
  destruct (explicit_window_ok e (UInt u) ny nx (IZR u) s1 s2 (fun _ _ => 0) mas mns nf Hy Hx Hg) as [_ [Hu0 [W2 W3]]].
  assert (Hu : (0 < u)%Z) by (apply lt_IZR; auto).
  destruct (C39_minimum_on_grid e im1 im2 err (UInt u) nt np zm nf re rc mas mns huge ny nx (IZR u) s1 s2 t H1 H2 Hy Hx He Hh Hg Ht)
    as [c [t1 [t2 [t3 [ym [xm [x [y [rest [i [j [Em [Sa [Ec [Hi [Hj [Edy [Edx Hmin]]]]]]]]]]]]]]]]]].
  destruct (map_interp e im1 im2 err s nt zm np huge ny nx c t1 t2 t3 H1 H2 Hy Hx Hh Hs Em) as [Sc [Vc Ic]].
  destruct Sa as [A1 [A2 [A3 _]]]. cbn [fst snd] in *.
  assert (Hsn : s <> 0) by (destruct Hs as [[_ ->]|[_ ?]]; [lra|auto]).
  (* the coarse minimum has chi2 = 0 *)
  set (py := (((ny - 1) / 2 - dy) mod ny)%Z). set (px := (((nx - 1) / 2 - dx) mod nx)%Z).
  assert (Hpy : (0 <= py < ny)%Z) by (apply Z.mod_pos_bound; auto). assert (Hpx : (0 <= px < nx)%Z) by (apply Z.mod_pos_bound; auto).
  assert (M0 : forall n a d, (0 < n)%Z -> ((a - (a - d) mod n - d) mod n = 0)%Z).
  { intros n a d Hn. replace (a - (a - d) mod n - d)%Z with ((a - d) - (a - d) mod n)%Z by lia. rewrite Zminus_mod, Zmod_mod, Z.sub_diag. apply Z.mod_0_l. lia. }
  assert (Hz : g2 c ym xm = 0).
  { assert (L := A3 py px Hpy Hpx). rewrite (Vc py px) in L by auto.
    rewrite (chi2_of_roll_zero zm im1 im2 ny nx dy dx s Hr Hy Hx) in L by (apply M0; auto).
    assert (G : 0 <= g2 c ym xm). { rewrite Vc by auto. apply sum2_nonneg. intros; apply pow2_ge_0. } lra. }
  (* that pixel is a node of the grid *)
  destruct (hits_node ny u s1 ym Hu W2 Hhy) as [a [Ha Ea]]. destruct (hits_node nx u s2 xm Hu W3 Hhx) as [b [Hb Eb]].
  assert (L := Hmin a b Ha Hb).
  assert (E0 : chi2_at ny nx c (grid_shift ny ym s1 (IZR u) a) (grid_shift nx xm s2 (IZR u) b) = 0).
  { rewrite Ea, Eb. unfold chi2_at. rewrite <- !minus_IZR. rewrite (tiR_ext _ _ (img2 (g2 c))).
    - rewrite tiR_int2 by auto. replace ((ny - 1) / 2 - ((ny - 1) / 2 - ym))%Z with ym by lia. replace ((nx - 1) / 2 - ((nx - 1) / 2 - xm))%Z with xm by lia.
      rewrite !Z.mod_small by auto. exact Hz.
    - intros z Hin. apply inb2' in Hin. destruct Hin as [k [l [-> _]]]. reflexivity. }
  destruct (Ic y x) as [Il _].
  assert (Q : chi2c ny nx (prep zm im1 ny nx) (prep zm im2 ny nx) s y x = 0).
  { apply Rle_antisym; [lra|]. apply sum2_nonneg. intros; apply pow2_ge_0. }
  assert (Heq : forall i j, (0 <= i < ny)%Z -> (0 <= j < nx)%Z -> fshift ny nx (prep zm im1 ny nx) y x i j = prep zm im2 ny nx i j).
  { intros k l Hk Hl.
    assert (Z0 := sum2_nonneg_0 ny nx (fun i j => ((prep zm im2 ny nx i j - fshift ny nx (prep zm im1 ny nx) y x i j) / s) ^ 2)
       ltac:(intros; apply pow2_ge_0) Q k l Hk Hl). cbv beta in Z0. simpl in Z0. rewrite Rmult_1_r in Z0. apply Rsqr_0_uniq in Z0.
    set (D := prep zm im2 ny nx k l - fshift ny nx (prep zm im1 ny nx) y x k l) in *.
    assert (D = D / s * s) by (field; auto). rewrite Z0 in H. unfold D in H. lra. }
  exists x, y, rest. split; [exact Ec|]. split; [exact Heq|].
  intros Hsym.
  destruct (Hsym (y - IZR dy) (x - IZR dx)) as [k [l [Ek El]]].
  { intros i' j' Hi' Hj'. rewrite fshift_add_int, <- fshift_mod by auto. rewrite Heq by (apply Z.mod_pos_bound; auto).
    rewrite (prep_roll zm im1 im2 ny nx dy dx) by (auto; apply Z.mod_pos_bound; auto).
    rewrite !Zminus_mod_idemp_l. replace (i' + dy - dy)%Z with i' by lia. replace (j' + dx - dx)%Z with j' by lia. rewrite !Z.mod_small by auto. reflexivity. }
  (* the coarse pixel is the true one *)
  assert (Hint : exists k' l' : Z, ((ny - 1) / 2 - ym - dy = k' * ny /\ (nx - 1) / 2 - xm - dx = l' * nx)%Z).
  { destruct (Hsym (IZR ((ny - 1) / 2 - ym - dy)) (IZR ((nx - 1) / 2 - xm - dx))) as [k' [l' [K1 K2]]].
    { intros i' j' Hi' Hj'. rewrite fshift_int by auto.
      rewrite Vc in Hz by auto. unfold chi2_of in Hz.
      assert (Z0 := sum2_nonneg_0 ny nx _ ltac:(intros; apply pow2_ge_0) Hz ((i' + dy) mod ny)%Z ((j' + dx) mod nx)%Z ltac:(apply Z.mod_pos_bound; auto) ltac:(apply Z.mod_pos_bound; auto)).
      cbv beta in Z0. simpl in Z0. rewrite Rmult_1_r in Z0. apply Rsqr_0_uniq in Z0.
      rewrite (prep_roll zm im1 im2 ny nx dy dx) in Z0 by (auto; apply Z.mod_pos_bound; auto). rewrite !Zminus_mod_idemp_l in Z0.
      replace (i' + dy - dy)%Z with i' in Z0 by lia. replace (j' + dx - dx)%Z with j' in Z0 by lia.
      replace (i' + dy - ((ny - 1) / 2 - ym))%Z with (i' - ((ny - 1) / 2 - ym - dy))%Z in Z0 by lia.
      replace (j' + dx - ((nx - 1) / 2 - xm))%Z with (j' - ((nx - 1) / 2 - xm - dx))%Z in Z0 by lia.
      rewrite (Z.mod_small i' ny), (Z.mod_small j' nx) in Z0 by auto.
      match type of Z0 with (?a - ?b) / s = 0 => assert (a - b = (a - b) / s * s) by (field; auto); rewrite Z0 in *; lra end. }
    exists k', l'. rewrite <- mult_IZR in K1, K2. apply eq_IZR in K1, K2. auto. }
  destruct Hint as [k' [l' [K1 K2]]].
  assert (Fin1 : forall n m d u0 s0 v i0 q q', (0 < n)%Z -> 0 < u0 -> (0 <= i0 < s0)%Z -> (0 <= m < n)%Z -> v = grid_shift n m s0 u0 i0 ->
     ((n - 1) / 2 - m - d = q' * n)%Z -> v - IZR d = IZR q * IZR n -> (IZR s0 - 1) / 2 / u0 + (if Z.even n then 1 / 2 else 0) < IZR n ->
     v = IZR ((n - 1) / 2 - ((n - 1) / 2 - d) mod n)).
  { intros n m d u0 s0 v i0 q q' Hn Hu1 Hi0 Hm Ev Eq' Eq Hb0. assert (B := grid_shift_near n m s0 u0 i0 Hu1 Hi0). rewrite <- Ev in B.
    assert (Em' : (((n - 1) / 2 - d) mod n = m)%Z).
    { replace ((n - 1) / 2 - d)%Z with (m + q' * n)%Z by lia. rewrite Z_mod_plus_full. apply Z.mod_small; auto. }
    rewrite Em'. assert (Ez : v - IZR ((n - 1) / 2 - m) = IZR ((q - q') * n)).
    { replace ((n - 1) / 2 - m)%Z with (d + q' * n)%Z by lia. rewrite plus_IZR, !mult_IZR, minus_IZR. lra. }
    rewrite Ez in B. rewrite <- abs_IZR in B. assert (L1 : (Z.abs ((q - q') * n) < n)%Z) by (apply lt_IZR; lra).
    assert ((q - q') = 0)%Z by nia. rewrite H in Ez. simpl in Ez. lra. }
  assert (Bw : forall n s0, (0 < n)%Z -> (s0 = n \/ s0 = 2 * u /\ (1 < n \/ Z.odd n = true))%Z ->
     (IZR s0 - 1) / 2 / IZR u + (if Z.even n then 1 / 2 else 0) < IZR n).
  { intros n s0 Hn [->|[-> Hn1]].
    - assert (1 <= IZR u) by (apply IZR_le; lia). assert (1 <= IZR n) by (apply IZR_le; lia).
      assert ((IZR n - 1) / 2 / IZR u <= (IZR n - 1) / 2).
      { unfold Rdiv at 1. rewrite <- (Rmult_1_r ((IZR n - 1) / 2)) at 2. apply Rmult_le_compat_l; [lra|].
        rewrite <- Rinv_1. apply Rinv_le_contravar; lra. }
      destruct (Z.even n); lra.
    - rewrite mult_IZR. assert ((2 * IZR u - 1) / 2 / IZR u = 1 - / (2 * IZR u)) by (field; lra). rewrite H.
      assert (0 < / (2 * IZR u)) by (apply Rinv_0_lt_compat; lra). rewrite <- Z.negb_odd.
      destruct (Z.odd n) eqn:On; cbn [negb].
      + assert (1 <= IZR n) by (apply IZR_le; lia). lra.
      + destruct Hn1 as [Hn1|Hn1]; [|discriminate]. assert (2 <= IZR n) by (apply IZR_le; lia). lra. }
  assert (Hss : ((s1 = ny \/ s1 = 2 * u /\ (1 < ny \/ Z.odd ny = true)) /\ (s2 = nx \/ s2 = 2 * u /\ (1 < nx \/ Z.odd nx = true)))%Z).
  { destruct Hg as [_ [_ Hg]]. assert (P : forall n, (0 < n)%Z -> (1 < n \/ Z.odd n = true)%Z).
    { intros n Hn. destruct (Z.eq_dec n 1) as [->|]; [right; reflexivity|left; lia]. }
    destruct (u <? ny)%Z; [tauto|]. destruct Hg as [-> ->]. split; right; split; auto. }
  destruct Hss as [Hs1 Hs2].
  split.
  - apply (Fin1 ny ym dy (IZR u) s1 y i k k'); auto.
  - apply (Fin1 nx xm dx (IZR u) s2 x j l l'); auto.
Qed.
Print Assumptions C38_roll_reproduced.

(** odd square images with any integer factor below the size, even square images with any odd integer factor *)
Corollary C38_odd_square_exact :
  forall e im1 im2 err s u nthreads use_np zeromean nfitted ret_err ret_arr mas mns allow_huge n dy dx t,
  is_roll im1 im2 n n dy dx -> (0 < u < n)%Z -> Z.odd n = true -> size_ok e allow_huge n n ->
  (err = ErrNone /\ s = 1 \/ err = ErrScalar s /\ s <> 0) -> one_sigma e t ->
  no_real_symmetry n n (prep zeromean im1 n n) ->
  exists rest,
    chi2_shift e im1 im2 err (UInt u) BWrap nthreads use_np zeromean nfitted false ret_err ret_arr mas mns allow_huge =
      Ok (RNum (IZR ((n - 1) / 2 - ((n - 1) / 2 - dx) mod n)) :: RNum (IZR ((n - 1) / 2 - ((n - 1) / 2 - dy) mod n)) :: rest).
Proof.
  intros e im1 im2 err s u nt np zm nf re rc mas mns huge n dy dx t Hr Hu Ho Hh Hs Ht Hsym.
  destruct (C38_roll_reproduced e im1 im2 err s u nt np zm nf re rc mas mns huge n n dy dx n n t) as [x [y [rest [E [_ H]]]]]; auto; try lia.
  - simpl. destruct (Z.ltb_spec u n); [repeat split; lia|lia].
  - unfold hits_pixel. rewrite Ho. reflexivity.
  - unfold hits_pixel. rewrite Ho. reflexivity.
  - destruct (H Hsym) as [-> ->]. exists rest. exact E.
Qed.
Print Assumptions C38_odd_square_exact.

Corollary C38_even_square_odd_factor_exact :
  forall e im1 im2 err s u nthreads use_np zeromean nfitted ret_err ret_arr mas mns allow_huge n dy dx t,
  is_roll im1 im2 n n dy dx -> (0 < u)%Z -> (0 < n)%Z -> Z.even n = true -> Z.odd u = true -> size_ok e allow_huge n n ->
  (err = ErrNone /\ s = 1 \/ err = ErrScalar s /\ s <> 0) -> one_sigma e t ->
  no_real_symmetry n n (prep zeromean im1 n n) ->
  exists rest,
    chi2_shift e im1 im2 err (UInt u) BWrap nthreads use_np zeromean nfitted false ret_err ret_arr mas mns allow_huge =
      Ok (RNum (IZR ((n - 1) / 2 - ((n - 1) / 2 - dx) mod n)) :: RNum (IZR ((n - 1) / 2 - ((n - 1) / 2 - dy) mod n)) :: rest).
Proof.
  intros e im1 im2 err s u nt np zm nf re rc mas mns huge n dy dx t Hr Hu Hn He Ho Hh Hs Ht Hsym.
  assert (Hhit : forall s0, (s0 = if u <? n then n else 2 * u)%Z -> hits_pixel n u s0).
  { intros s0 ->. unfold hits_pixel. rewrite <- Z.negb_even, He. cbn [negb].
    destruct (Z.ltb_spec u n); (split; [|lia]); rewrite Z.odd_add, Ho.
    - rewrite <- (Z.negb_even n), He. reflexivity.
    - rewrite Z.odd_mul. reflexivity. }
  destruct (C38_roll_reproduced e im1 im2 err s u nt np zm nf re rc mas mns huge n n dy dx
     (if u <? n then n else 2 * u)%Z (if u <? n then n else 2 * u)%Z t) as [x [y [rest [E [_ H]]]]]; auto.
  - simpl. destruct (u <? n)%Z; repeat split; auto.
  - destruct (H Hsym) as [-> ->]. exists rest. exact E.
Qed.
Print Assumptions C38_even_square_odd_factor_exact.

(** when the lowest Fourier coefficient of im1 along each axis is non-zero, no other shift reproduces im2 *)
Theorem C38_uniqueness_criterion :
  forall ny nx f, (3 <= ny)%Z -> (3 <= nx)%Z ->
  sumC ny (fun y => sumC nx (fun x => Cmult (RtoC (f y x)) (cis (- (2 * PI * (IZR y / IZR ny)))))) <> RtoC 0 ->
  sumC ny (fun y => sumC nx (fun x => Cmult (RtoC (f y x)) (cis (- (2 * PI * (IZR x / IZR nx)))))) <> RtoC 0 ->
  no_real_symmetry ny nx f.
Proof.
  intros ny nx f Hy Hx F1 F2. apply no_symmetry_criterion; auto.
  - intros E. apply F1. rewrite <- E. unfold dft. rewrite sumNC_cons. apply sumC_ext. intros y HY.
    rewrite sumNC_cons. apply sumC_ext. intros x HX. rewrite sumNC_nil. cbn [img2]. f_equal. f_equal. cbn [phZ]. unfold Rdiv. ring.
  - intros E. apply F2. rewrite <- E. unfold dft. rewrite sumNC_cons. apply sumC_ext. intros y HY.
    rewrite sumNC_cons. apply sumC_ext. intros x HX. rewrite sumNC_nil. cbn [img2]. f_equal. f_equal. cbn [phZ]. unfold Rdiv. ring.
Qed.
Print Assumptions C38_uniqueness_criterion.

(** sub-pixel shifts: if im2 is im1 Fourier-shifted by a node of the final grid, the result reproduces im2 *)
Theorem C38_subpixel_on_grid :
  forall e im1 im2 err s us nthreads use_np zeromean nfitted ret_err ret_arr mas mns allow_huge ny nx u s1 s2 t ty tx,
  shape im1 = [ny; nx] -> shape im2 = [ny; nx] -> (0 < ny)%Z -> (0 < nx)%Z -> size_ok e allow_huge ny nx ->
  (err = ErrNone /\ s = 1 \/ err = ErrScalar s /\ s <> 0) -> Z.odd ny = true -> Z.odd nx = true ->
  explicit_grid us ny nx u s1 s2 -> one_sigma e t ->
  let f1 := prep zeromean im1 ny nx in let f2 := prep zeromean im2 ny nx in
  (forall i j, (0 <= i < ny)%Z -> (0 <= j < nx)%Z -> f2 i j = fshift ny nx f1 ty tx i j) ->
  exists ym xm x y rest,
    (0 <= ym < ny)%Z /\ (0 <= xm < nx)%Z /\
    (forall k l, (0 <= k < ny)%Z -> (0 <= l < nx)%Z ->
       chi2_of ny nx f1 f2 (fun _ _ => s) ((ny - 1) / 2 - ym) ((nx - 1) / 2 - xm) <=
       chi2_of ny nx f1 f2 (fun _ _ => s) ((ny - 1) / 2 - k) ((nx - 1) / 2 - l)) /\
    chi2_shift e im1 im2 err us BWrap nthreads use_np zeromean nfitted false ret_err ret_arr mas mns allow_huge =
      Ok (RNum x :: RNum y :: rest) /\
    ((exists a b, (0 <= a < s1)%Z /\ (0 <= b < s2)%Z /\ ty = grid_shift ny ym s1 u a /\ tx = grid_shift nx xm s2 u b) ->
     forall i j, (0 <= i < ny)%Z -> (0 <= j < nx)%Z -> fshift ny nx f1 y x i j = f2 i j).
Proof.
  intros e im1 im2 err s us nt np zm nf re rc mas mns huge ny nx u s1 s2 t ty tx H1 H2 Hy Hx Hh Hs Oy Ox Hg Ht f1 f2 Hf.
  destruct (C39_least_squares_over_grid e im1 im2 err s us nt np zm nf re rc mas mns huge ny nx u s1 s2 t H1 H2 Hy Hx Hh Hs Oy Ox Hg Ht)
    as [ym [xm [x [y [rest [A1 [A2 [A3 [Ec [_ Hmin]]]]]]]]]]. fold f1 f2 in A3, Hmin.
  exists ym, xm, x, y, rest. split; [auto|]. split; [auto|]. split; [auto|]. split; [auto|].
  intros [a [b [Ha [Hb [Ey Ex]]]]] k l Hk Hl. assert (L := Hmin a b Ha Hb). rewrite <- Ey, <- Ex in L.
  assert (Hsn : s <> 0) by (destruct Hs as [[_ ->]|[_ ?]]; [lra|auto]).
  assert (Z1 : chi2c ny nx f1 f2 s ty tx = 0).
  { apply sum2_const0. intros i j Hi Hj. rewrite Hf by auto. unfold Rdiv. ring. }
  rewrite Z1 in L.
  assert (Q : chi2c ny nx f1 f2 s y x = 0) by (apply Rle_antisym; [lra|apply sum2_nonneg; intros; apply pow2_ge_0]).
  assert (Z0 := sum2_nonneg_0 ny nx (fun i j => ((f2 i j - fshift ny nx f1 y x i j) / s) ^ 2)
       ltac:(intros; apply pow2_ge_0) Q k l Hk Hl). cbv beta in Z0. simpl in Z0. rewrite Rmult_1_r in Z0. apply Rsqr_0_uniq in Z0.
  set (D := f2 k l - fshift ny nx f1 y x k l) in *.
  assert (D = D / s * s) by (field; auto). rewrite Z0 in H. unfold D in H. lra.
Qed.
Print Assumptions C38_subpixel_on_grid.

(** non-vacuity: a single bright pixel, rolled *)
Definition delta5 : arr num := mk2 5 5 (fun y x => Fin (if (y =? 1)%Z && (x =? 3)%Z then 7 else 0)).
Definition delta5r : arr num := mk2 5 5 (fun y x => Fin (if (y =? 4)%Z && (x =? 1)%Z then 7 else 0)).
Lemma cis_neq0 x : cis x <> RtoC 0.
Proof. intros E. assert (H := Cmod_cis x). rewrite E, Cmod_0 in H. lra. Qed.
Example C38_nonvacuous : is_roll delta5 delta5r 5 5 3 (-2) /\ no_real_symmetry 5 5 (prep false delta5 5 5) /\
  one_sigma (Env false (2 ^ 30) false (fun _ _ => NaN)) (159358435 / 100000000) /\
  size_ok (Env false (2 ^ 30) false (fun _ _ => NaN)) false 5 5 /\
  ((5 - 1) / 2 - ((5 - 1) / 2 - 3) mod 5 = -2)%Z /\ ((5 - 1) / 2 - ((5 - 1) / 2 - -2) mod 5 = -2)%Z.
Proof.
  split; [|split; [|split; [|split; [|split]]]]; try reflexivity.
  - split; [reflexivity|]. split; [reflexivity|]. intros y x Hy Hx.
    assert (y = 0 \/ y = 1 \/ y = 2 \/ y = 3 \/ y = 4)%Z as [-> | [-> | [-> | [-> | ->]]]] by lia;
    assert (x = 0 \/ x = 1 \/ x = 2 \/ x = 3 \/ x = 4)%Z as [-> | [-> | [-> | [-> | ->]]]] by lia; reflexivity.
  - assert (S : forall g : Z -> Z -> C, sumC 5 (fun y => sumC 5 (fun x => Cmult (RtoC (prep false delta5 5 5 y x)) (g y x))) = Cmult (RtoC 7) (g 1%Z 3%Z)).
    { intros g. rewrite (sumC_single 5 _ 1%Z); [|lia|].
      2:{ intros i Hi Hne. apply sumC_const0. intros j Hj.
          unfold prep, delta5, mk2; cbn [get]. destruct (Z.eqb_spec i 1); [contradiction|]. cbn [andb]. apply Cmult_0_l. }
      rewrite (sumC_single 5 _ 3%Z); [reflexivity|lia|].
      intros j Hj Hne. unfold prep, delta5, mk2; cbn [get]. destruct (Z.eqb_spec j 3); [contradiction|]. rewrite andb_false_r. apply Cmult_0_l. }
    apply C38_uniqueness_criterion; try lia.
    + rewrite (S (fun y x => cis (- (2 * PI * (IZR y / 5))))). apply Cmult_neq_0; [intros E; apply RtoC_inj in E; lra|apply cis_neq0].
    + rewrite (S (fun y x => cis (- (2 * PI * (IZR x / 5))))). apply Cmult_neq_0; [intros E; apply RtoC_inj in E; lra|apply cis_neq0].
  - split; [lra|reflexivity].
  - right. simpl. lia.
Qed.

(** *** C39: quantisation *)
(** parity: when the grid of an axis has no node on a whole pixel, a whole-pixel shift is missed by at least half a step *)
Theorem C39_whole_pixel_missed :
  forall n m s u i (k : Z), (0 < u)%Z ->
  Z.even (if Z.odd n then s else u + s) = true ->
  1 / (2 * IZR u) <= Rabs (grid_shift n m s (IZR u) i - IZR k).
Proof.
  intros n m s u i k Hu He. assert (Hu' : 0 < IZR u) by (apply IZR_lt; auto).
  apply Z.even_spec in He. destruct He as [h Hh].
  set (N := (2 * u * ((n - 1) / 2 - m - k) - (if Z.odd n then 0 else u) - (2 * i - s + 1))%Z).
  assert (E : grid_shift n m s (IZR u) i - IZR k = IZR N / (2 * IZR u)).
  { unfold grid_shift, N. rewrite <- Z.negb_odd. destruct (Z.odd n); cbn [negb];
    rewrite !minus_IZR, ?plus_IZR, !mult_IZR, ?minus_IZR, ?plus_IZR, ?mult_IZR, ?minus_IZR; simpl (IZR 0); field; lra. }
  rewrite E. unfold Rdiv. rewrite Rabs_mult, (Rabs_pos_eq (/ _)) by (apply Rlt_le, Rinv_0_lt_compat; lra).
  apply Rmult_le_compat_r; [apply Rlt_le, Rinv_0_lt_compat; lra|]. rewrite <- abs_IZR. apply IZR_le.
  assert (N <> 0)%Z; [|lia]. unfold N. destruct (Z.odd n); lia.
Qed.
Print Assumptions C39_whole_pixel_missed.

(** in particular with an int factor at least the image height (window 2u x 2u): every whole-pixel roll of an image with
    odd height is missed by at least 1/(2u) on that axis, and on any axis when u is even *)
Theorem C39_large_factor_never_exact :
  forall e im1 im2 err u nthreads use_np zeromean nfitted ret_err ret_arr mas mns allow_huge ny nx t,
  shape im1 = [ny; nx] -> shape im2 = [ny; nx] -> (0 < ny)%Z -> (0 < nx)%Z -> err_ok err ny nx -> size_ok e allow_huge ny nx ->
  one_sigma e t -> (ny <= u)%Z ->
  exists x y rest,
    chi2_shift e im1 im2 err (UInt u) BWrap nthreads use_np zeromean nfitted false ret_err ret_arr mas mns allow_huge =
      Ok (RNum x :: RNum y :: rest) /\
    forall k : Z, (Z.odd ny = true \/ Z.even u = true -> 1 / (2 * IZR u) <= Rabs (y - IZR k)) /\
                  (Z.odd nx = true \/ Z.even u = true -> 1 / (2 * IZR u) <= Rabs (x - IZR k)).
Proof.
  intros e im1 im2 err u nt np zm nf re rc mas mns huge ny nx t H1 H2 Hy Hx He Hh Ht Hu.
  destruct (C39_minimum_on_grid e im1 im2 err (UInt u) nt np zm nf re rc mas mns huge ny nx (IZR u) (2 * u) (2 * u) t H1 H2 Hy Hx He Hh)
    as [c [t1 [t2 [t3 [ym [xm [x [y [rest [i [j [Em [Sa [Ec [Hi [Hj [Edy [Edx Hmin]]]]]]]]]]]]]]]]]]; auto.
  { simpl. destruct (Z.ltb_spec u ny); [lia|]. repeat split; lia. }
  exists x, y, rest. split; [exact Ec|]. intros k.
  assert (P : forall n, Z.odd n = true \/ Z.even u = true -> Z.even (if Z.odd n then 2 * u else u + 2 * u) = true).
  { intros n H. destruct (Z.odd n) eqn:E; [rewrite Z.even_mul; reflexivity|]. destruct H as [H|H]; [discriminate|].
    rewrite Z.even_add, H, Z.even_mul. reflexivity. }
  split; intros HP; [rewrite Edy|rewrite Edx]; apply C39_whole_pixel_missed; auto; lia.
Qed.
Print Assumptions C39_large_factor_never_exact.

(** the result lies within the documented window around the coarse whole-pixel shift *)
Theorem C39_window :
  forall e im1 im2 err us nthreads use_np zeromean nfitted ret_err ret_arr mas mns allow_huge ny nx u s1 s2 t,
  shape im1 = [ny; nx] -> shape im2 = [ny; nx] -> (0 < ny)%Z -> (0 < nx)%Z -> err_ok err ny nx -> size_ok e allow_huge ny nx ->
  explicit_grid us ny nx u s1 s2 -> one_sigma e t ->
  exists map0 t1 t2 t3 ym xm x y rest,
    chi2n_map e im1 im2 err BWrap nthreads zeromean use_np true false allow_huge = Ok (Chi2All map0 t1 t2 t3) /\
    is_argmin2 ny nx (g2 map0) (ym, xm) /\
    chi2_shift e im1 im2 err us BWrap nthreads use_np zeromean nfitted false ret_err ret_arr mas mns allow_huge =
      Ok (RNum x :: RNum y :: rest) /\
    Rabs (y - IZR ((ny - 1) / 2 - ym)) <= (IZR s1 - 1) / 2 / u + (if Z.even ny then 1 / 2 else 0) /\
    Rabs (x - IZR ((nx - 1) / 2 - xm)) <= (IZR s2 - 1) / 2 / u + (if Z.even nx then 1 / 2 else 0).
Proof.
  intros e im1 im2 err us nt np zm nf re rc mas mns huge ny nx u s1 s2 t H1 H2 Hy Hx He Hh Hg Ht.
  destruct (C39_minimum_on_grid e im1 im2 err us nt np zm nf re rc mas mns huge ny nx u s1 s2 t H1 H2 Hy Hx He Hh Hg Ht)
    as [c [t1 [t2 [t3 [ym [xm [x [y [rest [i [j [Em [Sa [Ec [Hi [Hj [Edy [Edx Hmin]]]]]]]]]]]]]]]]]].
  destruct (explicit_window_ok e us ny nx u s1 s2 (fun _ _ => 0) mas mns nf Hy Hx Hg) as [_ [Hu0 _]].
  exists c, t1, t2, t3, ym, xm, x, y, rest. split; [exact Em|]. split; [exact Sa|]. split; [exact Ec|].
  rewrite Edy, Edx. split; apply grid_shift_near; auto.
Qed.
Print Assumptions C39_window.

Example C39_nonvacuous : explicit_grid (UInt 3) 5 4 3 5 4 /\ explicit_grid (UInt 8) 5 4 8 16 16 /\ explicit_grid (UFloat (7 / 2)) 5 4 (7 / 2) 5 4 /\
  Z.even (if Z.odd 5 then 16 else 8 + 16) = true /\ grid_shift 5 1 5 3 4 = 1 / 3.
Proof.
  repeat split; try lia; try lra; try reflexivity. unfold grid_shift. cbn [Z.even]. change ((5 - 1) / 2)%Z with 2%Z. lra.
Qed.

(** *** C41: coverage of the half-pixel neighbourhood *)
(** holds on odd axes whenever the factor is less than the axis length (or the large-factor window is used) *)
Theorem C41_odd_axis_covered :
  forall n m s u (d : R), (0 < u)%Z -> (u < s)%Z -> Z.odd n = true -> Rabs d <= 1 / 2 ->
  exists lo hi, (0 <= lo < s)%Z /\ (0 <= hi < s)%Z /\
    grid_shift n m s (IZR u) lo <= IZR ((n - 1) / 2 - m) + d <= grid_shift n m s (IZR u) hi.
Proof.
  intros n m s u d Hu Hs Ho Hd. exists (s - 1)%Z, 0%Z. split; [lia|]. split; [lia|].
  assert (Hu' : 0 < IZR u) by (apply IZR_lt; auto).
  unfold grid_shift. rewrite <- Z.negb_odd, Ho. cbn [negb]. rewrite !minus_IZR.
  assert (B : 1 / 2 <= (IZR s - 1) / 2 / IZR u).
  { apply (Rmult_le_reg_r (IZR u)); auto. replace ((IZR s - 1) / 2 / IZR u * IZR u) with ((IZR s - 1) / 2) by (field; lra).
    assert (IZR u <= IZR s - 1) by (rewrite <- minus_IZR; apply IZR_le; lia). lra. }
  assert (Hd' : -(1/2) <= d <= 1/2) by (revert Hd; unfold Rabs; destruct (Rcase_abs d); lra).
  assert (E1 : (IZR s - 1 - (IZR s - 1) / 2) / IZR u = (IZR s - 1) / 2 / IZR u) by (field; lra).
  assert (E2 : (0 - (IZR s - 1) / 2) / IZR u = - ((IZR s - 1) / 2 / IZR u)) by (field; lra).
  rewrite E1, E2. lra.
Qed.
Print Assumptions C41_odd_axis_covered.

(** fails for even sizes: for 100 x 100 images and upsample_factor 99 the result is never above the coarse whole-pixel
    shift, so a positive fraction can never be measured *)
Theorem C41_even_size_refuted :
  forall e im1 im2 err nthreads use_np zeromean nfitted ret_err ret_arr mas mns allow_huge t,
  shape im1 = [100; 100]%Z -> shape im2 = [100; 100]%Z -> err_ok err 100 100 -> size_ok e allow_huge 100 100 -> one_sigma e t ->
  exists map0 t1 t2 t3 ym xm x y rest,
    chi2n_map e im1 im2 err BWrap nthreads zeromean use_np true false allow_huge = Ok (Chi2All map0 t1 t2 t3) /\
    is_argmin2 100 100 (g2 map0) (ym, xm) /\
    chi2_shift e im1 im2 err (UInt 99) BWrap nthreads use_np zeromean nfitted false ret_err ret_arr mas mns allow_huge =
      Ok (RNum x :: RNum y :: rest) /\
    y <= IZR (49 - ym) /\ x <= IZR (49 - xm).
Proof.
  intros e im1 im2 err nt np zm nf re rc mas mns huge t H1 H2 He Hh Ht.
  destruct (C39_minimum_on_grid e im1 im2 err (UInt 99) nt np zm nf re rc mas mns huge 100 100 99 100 100 t H1 H2 ltac:(lia) ltac:(lia) He Hh)
    as [c [t1 [t2 [t3 [ym [xm [x [y [rest [i [j [Em [Sa [Ec [Hi [Hj [Edy [Edx Hmin]]]]]]]]]]]]]]]]]]; auto.
  { simpl. repeat split; lia. }
  exists c, t1, t2, t3, ym, xm, x, y, rest. split; [exact Em|]. split; [exact Sa|]. split; [exact Ec|].
  rewrite Edy, Edx. unfold grid_shift. cbn [Z.even]. change ((100 - 1) / 2)%Z with 49%Z. rewrite !minus_IZR.
  assert (0 <= IZR i) by (apply IZR_le; lia). assert (0 <= IZR j) by (apply IZR_le; lia). lra.
Qed.
Print Assumptions C41_even_size_refuted.

(** fails for non-square images: 100 x 10 with factor 50 only explores +-0.09 pixel around coarse - 1/2 in x *)
Theorem C41_non_square_refuted :
  forall e im1 im2 err nthreads use_np zeromean nfitted ret_err ret_arr mas mns allow_huge t,
  shape im1 = [100; 10]%Z -> shape im2 = [100; 10]%Z -> err_ok err 100 10 -> size_ok e allow_huge 100 10 -> one_sigma e t ->
  exists map0 t1 t2 t3 ym xm x y rest,
    chi2n_map e im1 im2 err BWrap nthreads zeromean use_np true false allow_huge = Ok (Chi2All map0 t1 t2 t3) /\
    is_argmin2 100 10 (g2 map0) (ym, xm) /\
    chi2_shift e im1 im2 err (UInt 50) BWrap nthreads use_np zeromean nfitted false ret_err ret_arr mas mns allow_huge =
      Ok (RNum x :: RNum y :: rest) /\
    Rabs (x - (IZR (4 - xm) - 1 / 2)) <= 9 / 100.
Proof.
  intros e im1 im2 err nt np zm nf re rc mas mns huge t H1 H2 He Hh Ht.
  destruct (C39_minimum_on_grid e im1 im2 err (UInt 50) nt np zm nf re rc mas mns huge 100 10 50 100 10 t H1 H2 ltac:(lia) ltac:(lia) He Hh)
    as [c [t1 [t2 [t3 [ym [xm [x [y [rest [i [j [Em [Sa [Ec [Hi [Hj [Edy [Edx Hmin]]]]]]]]]]]]]]]]]]; auto.
  { simpl. repeat split; lia. }
  exists c, t1, t2, t3, ym, xm, x, y, rest. split; [exact Em|]. split; [exact Sa|]. split; [exact Ec|].
  rewrite Edx. unfold grid_shift. cbn [Z.even]. change ((10 - 1) / 2)%Z with 4%Z. rewrite !minus_IZR.
  assert (0 <= IZR j) by (apply IZR_le; lia). assert (IZR j <= 9) by (apply IZR_le; lia). apply Rabs_le. lra.
Qed.
Print Assumptions C41_non_square_refuted.
Example C41_nonvacuous : err_ok (ErrScalar 2) 100 10 /\ size_ok (Env false (2 ^ 30) true (fun _ _ => Fin 2)) false 100 100 /\
  one_sigma (Env false (2 ^ 30) true (fun _ _ => Fin 2)) 2.
Proof. split; [simpl; lra|]. split; [right; simpl; lia|]. split; [lra|reflexivity]. Qed.
