(** C132: images that sample a band-limited scene, exactly or nearly *)
From Coq Require Import ZArith Lia List Reals Lra Bool.
From Coquelicot Require Import Complex.
From Verif Require Import Base NDim DFT Kernel Num Py Sum2 M_fast_ffts M_shift M_scale M_zoom M_upsample M_convolve M_correlate Arg M_chi2
  Spec L_shift L_scale L_upsample L_convolve Spec2 Spec3 Spec4 L_correlate L_chi2 L_zoom L_register L_register2
  L_chi2shift L_fshift P_shift P_scale P_zoom P_upsample P_rounding L_iterzoom2 L_accuracy.
Import ListNotations.
Open Scope R_scope.

(** ** specification *)
(** the plane wave of k_i cycles per n_i pixels along axis i, at the point p *)
Fixpoint wave (sh ks : list Z) (p : list R) : C :=
  match sh, ks, p with
  | n :: sh', k :: ks', t :: p' => Cmult (cis (2 * PI * (IZR k * t / IZR n))) (wave sh' ks' p')
  | _, _, _ => RtoC 1
  end.
(** fewer than half a cycle per pixel, along every axis *)
Definition below_nyquist (sh ks : list Z) : Prop := Forall2 (fun n k => (2 * Z.abs k < n)%Z) sh ks.
(** the real function g of the plane (line, space) is a finite combination of such waves *)
Definition band_limited (sh : list Z) (g : list R -> R) : Prop :=
  exists modes : list (C * list Z), Forall (fun m => below_nyquist sh (snd m)) modes /\
    forall p, length p = length sh -> RtoC (g p) = fold_right Cplus (RtoC 0) (map (fun m => Cmult (fst m) (wave sh (snd m) p)) modes).
(** root of the sum of the squares over the pixels *)
Definition size2 (sh : list Z) (h : list Z -> R) : R := sqrt (sumNR sh (fun x => h x ^ 2)).
(** the image of the samples of f *)
Definition sampled (sh : list Z) (f : list R -> R) : arr R := Arr sh (fun x => f (map IZR x)).

(** ** the interpolant of a band-limited scene is the scene *)
Lemma conj_cis t : Cconj (cis t) = cis (- t).
Proof. unfold Cconj, cis. cbn. rewrite cos_neg, sin_neg. reflexivity. Qed.
Lemma cis_conj_wave m t n : Cconj (cis (2 * PI * (IZR (- m) * t / IZR n))) = cis (2 * PI * (IZR m * t / IZR n)).
Proof. rewrite conj_cis, opp_IZR. f_equal. unfold Rdiv. ring. Qed.
Lemma wave1 n m p : (0 < n)%Z -> (2 * Z.abs m < n)%Z ->
  sumC n (fun j => Cmult (cis (2 * PI * (IZR m * IZR j / IZR n))) (dirichlet n (p - IZR j))) = cis (2 * PI * (IZR m * p / IZR n)).
Proof.
  intros Hn Hm. assert (M := mode_interp n (- m) p Hn ltac:(rewrite Z.abs_opp; auto)). apply (f_equal Cconj) in M. rewrite cis_conj_wave in M. rewrite <- M.
  unfold interpN. rewrite sumNC_cons, Cconj_sumC. apply sumC_ext. intros j Hj. rewrite sumNC_nil, Cconj_mult, cis_conj_wave. f_equal.
  rewrite Dn_conj, oppR_subR. change (toR [j]) with [IZR j]. cbn [subR zipw]. rewrite Dn_1, D1_dirichlet by auto. reflexivity.
Qed.
Lemma wave_interp sh : pos_shape sh -> forall ks p, below_nyquist sh ks -> length p = length sh -> trig_interp sh (fun y => wave sh ks (toR y)) p = wave sh ks p.
Proof.
  intros Hp. induction sh as [|n sh IH]; intros ks p B L; inversion B as [|? k ? ks' Hk B']; subst; destruct p as [|t p]; try discriminate L.
  - unfold trig_interp. rewrite sumNC_nil. cbn. ring.
  - apply pos_shape_cons in Hp. destruct Hp as [Hn Hp]. cbn [wave]. rewrite <- (wave1 n k t Hn Hk), <- (IH Hp ks' p B') by (cbn in L; lia).
    unfold trig_interp. rewrite sumNC_cons, <- sumC_scal_r. apply sumC_ext. intros j Hj.
    rewrite <- sumNC_scal. apply sumNC_ext. intros y Hy. change (toR (j :: y)) with (IZR j :: toR y). cbn [wave dirichletN]. ring.
Qed.
Lemma ti_ext sh a b p : (forall y, inb sh y -> a y = b y) -> trig_interp sh a p = trig_interp sh b p.
Proof. intros H. apply sumNC_ext. intros y Hy. rewrite H; auto. Qed.
Lemma ti_plus sh a b p : trig_interp sh (fun y => Cplus (a y) (b y)) p = Cplus (trig_interp sh a p) (trig_interp sh b p).
Proof. unfold trig_interp. rewrite <- sumNC_plus. apply sumNC_ext. intros. ring. Qed.
Lemma ti_minus sh a b p : trig_interp sh (fun y => Cminus (a y) (b y)) p = Cminus (trig_interp sh a p) (trig_interp sh b p).
Proof. unfold trig_interp. rewrite <- sumNC_minus. apply sumNC_ext. intros. ring. Qed.
Lemma ti_scal sh c a p : trig_interp sh (fun y => Cmult c (a y)) p = Cmult c (trig_interp sh a p).
Proof. unfold trig_interp. rewrite <- sumNC_scal. apply sumNC_ext. intros. ring. Qed.
Lemma scene_interp sh g p : pos_shape sh -> band_limited sh g -> length p = length sh -> trig_interp sh (fun y => RtoC (g (toR y))) p = RtoC (g p).
Proof.
  intros Hp [modes [B G]] L. rewrite (G p L). rewrite (ti_ext sh _ (fun y => fold_right Cplus (RtoC 0) (map (fun m => Cmult (fst m) (wave sh (snd m) (toR y))) modes))).
  2:{ intros y Hy. apply G. unfold toR. rewrite map_length. apply inb_length; auto. }
  clear G. induction B as [|[c ks] modes Bm B IH]; cbn [map fold_right fst snd].
  - unfold trig_interp. rewrite (sumNC_const0 sh); [reflexivity|]. intros; ring.
  - rewrite ti_plus, ti_scal, IH. f_equal. f_equal. apply wave_interp; auto.
Qed.
(** the interpolant and the shift do not magnify *)
Lemma interp_le sh (e : list Z -> R) p : pos_shape sh -> length p = length sh -> Cmod (trig_interp sh (fun y => RtoC (e y)) p) <= size2 sh e.
Proof.
  intros Hp L. set (z := map (fun _ : Z => 0%Z) sh). assert (Iz : inb sh z).
  { unfold z. clear - Hp. induction sh as [|n sh IH]; [constructor|]. apply pos_shape_cons in Hp. constructor; [lia|apply IH; tauto]. }
  assert (E := shifted_energy sh (fun y => RtoC (e y)) (oppR p) 0 Hp ltac:(unfold oppR; rewrite map_length; auto)).
  assert (T := l2_term sh (shifted sh (fun y => RtoC (e y)) (oppR p) 0) z Iz). unfold l2sq in T. rewrite E in T.
  replace (trig_interp sh (fun y => RtoC (e y)) p) with (shifted sh (fun y => RtoC (e y)) (oppR p) 0 z).
  - refine (Rle_trans _ _ _ T _). unfold size2. apply sqrt_le_1_alt. right. apply sumNR_ext. intros y _. rewrite Cmod_R, pow2_abs. reflexivity.
  - unfold shifted. rewrite Ropp_0, cis_0, Cmult_1_l, Dn_interp; auto; [|rewrite subR_length; unfold toR, oppR; rewrite !map_length; unfold z; rewrite ?map_length; lia].
    f_equal. clear - L. unfold z. revert p L. induction sh as [|n sh IH]; intros [|t p] L; try discriminate L; [reflexivity|].
    cbn [map oppR toR]. change (subR (IZR 0 :: toR (map (fun _ => 0%Z) sh)) (- t :: oppR p)) with ((IZR 0 - - t) :: subR (toR (map (fun _ => 0%Z) sh)) (oppR p)).
    rewrite IH by (cbn in L; lia). f_equal. cbn. ring.
Qed.
Lemma interpR_le sh e p : pos_shape sh -> length p = length sh -> Rabs (trig_interpR sh e p) <= size2 sh e.
Proof. intros Hp L. rewrite <- trig_interp_Re. refine (Rle_trans _ _ _ (re_le_Cmod _) (interp_le sh e p Hp L)). Qed.
Lemma shift_le sh (e : list Z -> R) d : pos_shape sh -> length d = length sh ->
  size2 sh (fun x => trig_interpR sh e (coord_minus x d)) <= size2 sh e.
Proof.
  intros Hp L. unfold size2. apply sqrt_le_1_alt.
  assert (E := shifted_energy sh (fun y => RtoC (e y)) d 0 Hp L).
  replace (sumNR sh (fun y => e y ^ 2)) with (sumNR sh (fun y => Cmod (RtoC (e y)) ^ 2)) by (apply sumNR_ext; intros; rewrite Cmod_R, pow2_abs; reflexivity).
  rewrite <- E. apply sumNR_le. intros x Hx. assert (Lx := inb_length _ _ Hx).
  unfold shifted. rewrite Ropp_0, cis_0, Cmult_1_l, Dn_interp by (auto; rewrite subR_length; unfold toR; rewrite map_length; lia).
  rewrite coord_minus_sub, <- trig_interp_Re. set (w := trig_interp _ _ _). rewrite <- (pow2_abs (Re w)).
  apply pow_incr. split; [apply Rabs_pos|apply re_le_Cmod].
Qed.
Lemma scene_dev sh img g p : pos_shape sh -> band_limited sh g -> length p = length sh ->
  trig_interpR sh img p - g p = trig_interpR sh (fun y => img y - g (map IZR y)) p.
Proof.
  intros Hp B L. rewrite <- !trig_interp_Re. rewrite (ti_ext sh (fun y => RtoC (img y - g (map IZR y))) (fun y => Cminus (RtoC (img y)) (RtoC (g (toR y))))) by (intros; apply RtoC_minus).
  rewrite ti_minus, (scene_interp sh g p Hp B L). destruct (trig_interp sh (fun y => RtoC (img y)) p) as [a b]. cbn. ring.
Qed.
Lemma scene_near sh img g p : pos_shape sh -> band_limited sh g -> length p = length sh ->
  Rabs (trig_interpR sh img p - g p) <= size2 sh (fun y => img y - g (map IZR y)).
Proof. intros Hp B L. rewrite (scene_dev sh img g p Hp B L). apply interpR_le; auto. Qed.
Lemma size2_zero sh h : (forall x, inb sh x -> h x = 0) -> size2 sh h = 0.
Proof. intros H. unfold size2. rewrite sumNR_const0, sqrt_0; auto. intros x Hx. rewrite H by auto. ring. Qed.
Lemma size2_ext sh h k : (forall x, inb sh x -> h x = k x) -> size2 sh h = size2 sh k.
Proof. intros H. unfold size2. f_equal. apply sumNR_ext. intros x Hx. rewrite H; auto. Qed.

(** *** C132 *)
(** shiftnd, any number of axes: the distance between the shifted image and the displaced scene is at most that between the image and
    the scene, in the 2-norm and (from the 2-norm) at every pixel *)
Theorem C132_shiftnd :
  forall env sh (img : arr R) g (d : list R) nt np rabs,
  pos_shape sh -> shape img = sh -> length d = length sh -> band_limited sh g ->
  exists r, shiftnd env (of_R img) d 0 nt np rabs true = Ok (RealArr r) /\ shape r = sh /\
    size2 sh (fun x => get r x - g (coord_minus x d)) <= size2 sh (fun x => get img x - g (map IZR x)) /\
    (forall x, inb sh x -> Rabs (get r x - g (coord_minus x d)) <= size2 sh (fun x => get img x - g (map IZR x))) /\
    ((forall x, inb sh x -> get img x = g (map IZR x)) -> forall x, inb sh x -> get r x = g (coord_minus x d)).
Proof.
  intros env sh img g d nt np rabs Hp Hs Ld B. subst sh.
  destruct (C14_shift_is_interpolation env img d nt np rabs Hp Ld) as [r [H1 [H2 H3]]]. exists r. split; [exact H1|]. split; [exact H2|].
  assert (V : forall x, inb (shape img) x -> get r x - g (coord_minus x d) = trig_interpR (shape img) (fun y => get img y - g (map IZR y)) (coord_minus x d)).
  { intros x Hx. rewrite H3 by auto. apply scene_dev; auto. rewrite coord_minus_sub, subR_length. unfold toR. rewrite map_length. assert (Lx := inb_length _ _ Hx). lia. }
  assert (P : forall x, inb (shape img) x -> Rabs (get r x - g (coord_minus x d)) <= size2 (shape img) (fun x => get img x - g (map IZR x))).
  { intros x Hx. rewrite V by auto. apply interpR_le; auto. rewrite coord_minus_sub, subR_length. unfold toR. rewrite map_length. assert (Lx := inb_length _ _ Hx). lia. }
  split; [|split]; auto.
  - rewrite (size2_ext _ _ _ V). apply shift_le; auto.
  - intros E x Hx. assert (Q := P x Hx). rewrite size2_zero in Q by (intros y Hy; rewrite E by auto; ring).
    assert (Q2 := Rle_abs (get r x - g (coord_minus x d))). assert (Q3 := Rle_abs (- (get r x - g (coord_minus x d)))). rewrite Rabs_Ropp in Q3. lra.
Qed.
Print Assumptions C132_shiftnd.

(** samples of a function f that is nearly band-limited *)
Theorem C132_sampled_function :
  forall env sh f g (d : list R) nt np rabs eps,
  pos_shape sh -> length d = length sh -> band_limited sh g -> 0 <= eps ->
  (forall p, length p = length sh -> Rabs (f p - g p) <= eps) ->
  exists r, shiftnd env (of_R (sampled sh f)) d 0 nt np rabs true = Ok (RealArr r) /\ shape r = sh /\
    size2 sh (fun x => get r x - f (coord_minus x d)) <= 2 * sqrt (IZR (prodZ sh)) * eps /\
    (forall x, inb sh x -> Rabs (get r x - f (coord_minus x d)) <= (1 + sqrt (IZR (prodZ sh))) * eps).
Proof.
  intros env sh f g d nt np rabs eps Hp Ld B He F.
  destruct (C132_shiftnd env sh (sampled sh f) g d nt np rabs Hp eq_refl Ld B) as [r [H1 [H2 [H3 [H4 _]]]]].
  exists r. split; [exact H1|]. split; [exact H2|].
  assert (N : forall h, (forall x, inb sh x -> Rabs (h x) <= eps) -> size2 sh h <= sqrt (IZR (prodZ sh)) * eps).
  { intros h Hh. unfold size2. rewrite <- (sqrt_pow2 eps He) , <- sqrt_mult by (try apply pow2_ge_0; apply IZR_le; assert (T := prodZ_pos sh Hp); lia).
    apply sqrt_le_1_alt. rewrite <- (sumNR_const sh (eps ^ 2) Hp). apply sumNR_le. intros x Hx. rewrite <- (pow2_abs (h x)). apply pow_incr. split; [apply Rabs_pos|auto]. }
  assert (E1 : size2 sh (fun x => get (sampled sh f) x - g (map IZR x)) <= sqrt (IZR (prodZ sh)) * eps).
  { apply N. intros x Hx. apply F. rewrite map_length. apply inb_length; auto. }
  assert (E2 : size2 sh (fun x => g (coord_minus x d) - f (coord_minus x d)) <= sqrt (IZR (prodZ sh)) * eps).
  { apply N. intros x Hx. rewrite Rabs_minus_sym. apply F. rewrite coord_minus_sub, subR_length. unfold toR. rewrite map_length. assert (Lx := inb_length _ _ Hx). lia. }
  split.
  - set (a := fun x => get r x - g (coord_minus x d)). set (b := fun x => g (coord_minus x d) - f (coord_minus x d)).
    assert (T := minkowski sh (fun x => Rabs (a x)) (fun x => Rabs (b x)) ltac:(intros; split; apply Rabs_pos)).
    assert (S1 : forall h, sqrt (sumNR sh (fun i => Rabs (h i) ^ 2)) = size2 sh h).
    { intros h. unfold size2. f_equal. apply sumNR_ext. intros. apply pow2_abs. }
    cbv beta in T. rewrite (S1 a), (S1 b) in T.
    assert (T2 : size2 sh (fun x => get r x - f (coord_minus x d)) <= sqrt (sumNR sh (fun i => (Rabs (a i) + Rabs (b i)) ^ 2))).
    { unfold size2. apply sqrt_le_1_alt. apply sumNR_le. intros x Hx. rewrite <- (pow2_abs (get r x - _)). apply pow_incr. split; [apply Rabs_pos|].
      replace (get r x - f (coord_minus x d)) with (a x + b x) by (unfold a, b; ring). apply Rabs_triang. }
    fold a in H3. fold b in E2. lra.
  - intros x Hx. assert (Q := H4 x Hx). assert (Q2 := F (coord_minus x d)).
    replace (get r x - f (coord_minus x d)) with ((get r x - g (coord_minus x d)) - (f (coord_minus x d) - g (coord_minus x d))) by ring.
    assert (T := Rabs_triang (get r x - g (coord_minus x d)) (- (f (coord_minus x d) - g (coord_minus x d)))). rewrite Rabs_Ropp in T.
    assert (Q3 : Rabs (f (coord_minus x d) - g (coord_minus x d)) <= eps).
    { apply Q2. rewrite coord_minus_sub, subR_length. unfold toR. rewrite map_length. assert (Lx := inb_length _ _ Hx). lia. }
    unfold Rminus at 1. lra.
Qed.
Print Assumptions C132_sampled_function.

(** zoom and interpolation: the values are those of the scene at the coordinates returned beside them (asked for), up to the same *)
Theorem C132_zoom :
  forall env (img : arr R) ny nx g cy cx usfac outshape my mx nt np,
  shape img = [ny; nx] -> (0 < ny)%Z -> (0 < nx)%Z -> usfac <> 0 ->
  match outshape with None => shape img | Some s => s end = [my; mx] -> (0 < my)%Z -> (0 < mx)%Z -> band_limited [ny; nx] g ->
  exists xs r, zoom_on_pixel env (amap RtoC img) [cy; cx] usfac outshape nt np true true = Ok (Some xs, RealArr r) /\ shape r = [my; mx] /\
    forall i j, (0 <= i < my)%Z -> (0 <= j < mx)%Z ->
      Rabs (g2 r i j - g [get xs [0%Z; i; j]; get xs [1%Z; i; j]]) <= size2 [ny; nx] (fun x => get img x - g (map IZR x)).
Proof.
  intros env img ny nx g cy cx us os my mx nt np Hs Hy Hx Hu Ho Hmy Hmx B. assert (Hp : pos_shape [ny; nx]) by (apply pos2; auto).
  destruct (C17_zoom_on_pixel_2d_values env img ny nx cy cx us os my mx nt np Hs Hy Hx Hu Ho Hmy Hmx) as [xs [r [H1 [H2 H3]]]].
  exists xs, r. split; [exact H1|]. split; [exact H2|]. intros i j Hi Hj. rewrite (proj1 (H3 i j Hi Hj)). apply scene_near; auto.
Qed.
Print Assumptions C132_zoom.

Theorem C132_zoom1d :
  forall env (img : arr R) n g usfac outsize offset nt np,
  shape img = [n] -> (0 < n)%Z -> usfac <> 0 -> (0 <= match outsize with None => n | Some m => m end)%Z -> band_limited [n] g ->
  exists xs r, zoom1d env (amap RtoC img) usfac outsize offset nt np true true = Ok (Some xs, RealArr r) /\ shape r = shape xs /\
    forall j, inb (shape xs) [j] -> Rabs (g1 r j - g [g1 xs j]) <= size2 [n] (fun x => get img x - g (map IZR x)).
Proof.
  intros env img n g us os off nt np Hs Hn Hu Ho B. assert (Hp : pos_shape [n]) by (repeat constructor; auto).
  destruct (C17_zoom1d_values env img n us os off nt np Hs Hn Hu Ho) as [xs [r [H1 [H2 H3]]]].
  exists xs, r. split; [exact H1|]. split; [exact H2|]. intros j Hj. rewrite (proj1 (H3 j Hj)). apply scene_near; auto.
Qed.
Print Assumptions C132_zoom1d.

Theorem C132_interpolation :
  forall env nt np,
  (forall (img : arr R) n g (ts : arr R) m, shape img = [n] -> (0 < n)%Z -> shape ts = [m] -> band_limited [n] g ->
    exists r, fourier_interp1d env (re_img img) ts None nt np true = Ok (RealArr r) /\ shape r = [m] /\
      forall j, (0 <= j < m)%Z -> Rabs (g1 r j - g [g1 ts j]) <= size2 [n] (fun x => get img x - g (map IZR x))) /\
  (forall (img : arr R) ny nx g (ys xs : list R), shape img = [ny; nx] -> (0 < ny)%Z -> (0 < nx)%Z -> band_limited [ny; nx] g ->
    exists r, fourier_interp2d env (re_img img) (IndSeq [ys; xs]) nt np true = Ok (RealArr r) /\
      shape r = [Z.of_nat (length ys); Z.of_nat (length xs)] /\
      forall i j, (i < length ys)%nat -> (j < length xs)%nat ->
        Rabs (g2 r (Z.of_nat i) (Z.of_nat j) - g [nth i ys 0; nth j xs 0]) <= size2 [ny; nx] (fun x => get img x - g (map IZR x))) /\
  (forall (img : arr R) ny nx g u o xshift yshift s1 s2, shape img = [ny; nx] -> (0 < ny)%Z -> (0 < nx)%Z -> (1 <= u)%Z -> (0 <= s1)%Z -> (0 <= s2)%Z ->
    out_size ny nx u o s1 s2 -> band_limited [ny; nx] g ->
    exists out, upsample_image env (RtoCa img) (IZR u) o nt np xshift yshift = Ok out /\ shape out = [s1; s2] /\
      forall r c, (0 <= r < s1)%Z -> (0 <= c < s2)%Z ->
        Rabs (Re (g2 out r c) - g [(IZR r - yshift) / IZR u; (IZR c - xshift) / IZR u]) <= size2 [ny; nx] (fun x => get img x - g (map IZR x))).
Proof.
  intros env nt np. split; [|split].
  - intros img n g ts m Hs Hn Hm B. assert (Hp : pos_shape [n]) by (repeat constructor; auto).
    destruct (C10_interp1d_is_trig_interpolant env img n ts m nt np Hs Hn Hm) as [r [H1 [H2 H3]]].
    exists r. split; [exact H1|]. split; [exact H2|]. intros j Hj. rewrite H3 by auto. apply scene_near; auto.
  - intros img ny nx g ys xs Hs Hy Hx B. assert (Hp : pos_shape [ny; nx]) by (apply pos2; auto).
    destruct (C13_interp2d_is_separable_interpolant env img ny nx ys xs nt np Hs Hy Hx) as [r [H1 [H2 H3]]].
    exists r. split; [exact H1|]. split; [exact H2|]. intros i j Hi Hj. rewrite H3 by auto. apply scene_near; auto.
  - intros img ny nx g u o xsh ysh s1 s2 Hs Hy Hx Hu H1 H2 Ho B. assert (Hp : pos_shape [ny; nx]) by (apply pos2; auto).
    destruct (C20_upsampled_pixel_is_interpolant env img ny nx u o nt np xsh ysh s1 s2 Hs Hy Hx Hu H1 H2 Ho) as [out [O1 [O2 O3]]].
    exists out. split; [exact O1|]. split; [exact O2|]. intros r c Hr Hc. rewrite O3 by auto. apply scene_near; auto.
Qed.
Print Assumptions C132_interpolation.

(** at half a cycle per pixel: the samples of sin(pi x) vanish *)
Theorem C132_nyquist_refuted :
  exists (g : list R -> R) (a b : C),
    (forall p, length p = 1%nat -> RtoC (g p) = Cplus (Cmult a (wave [2%Z] [1%Z] p)) (Cmult b (wave [2%Z] [(-1)%Z] p))) /\
    forall env nt np rabs, exists r, shiftnd env (of_R (sampled [2%Z] g)) [1 / 2] 0 nt np rabs true = Ok (RealArr r) /\
      forall x, inb [2%Z] x -> get r x = 0 /\ Rabs (g (coord_minus x [1 / 2])) = 1.
Proof.
  exists (fun p => match p with [t] => sin (PI * t) | _ => 0 end), (0, - / 2), (0, / 2). split.
  - intros [|t [|? ?]] L; try discriminate L. cbn [wave]. rewrite !Cmult_1_r.
    replace (2 * PI * (1 * t / 2)) with (PI * t) by field. replace (2 * PI * (-1 * t / 2)) with (- (PI * t)) by field.
    unfold cis. rewrite cos_neg, sin_neg. unfold Cmult, Cplus, RtoC. cbn [fst snd]. f_equal; field.
  - intros env nt np rabs. set (g := fun p : list R => match p with [t] => sin (PI * t) | _ => 0 end).
    destruct (C14_shift_is_interpolation env (sampled [2%Z] g) [1 / 2] nt np rabs ltac:(repeat constructor; lia) eq_refl) as [r [H1 [_ H3]]].
    exists r. split; [exact H1|]. intros x Hx. split.
    + rewrite H3 by exact Hx. unfold trig_interpR. apply sumNR_const0. intros y Hy. cbn [sampled shape] in Hy. apply inb1 in Hy. destruct Hy as [k [-> Hk]].
      cbn [get sampled map g]. assert (k = 0 \/ k = 1)%Z as [->| ->] by lia; [rewrite Rmult_0_r, sin_0|rewrite Rmult_1_r, sin_PI]; ring.
    + apply inb1 in Hx. destruct Hx as [k [-> Hk]]. cbn. assert (k = 0 \/ k = 1)%Z as [->| ->] by lia.
      * replace (PI * (0 - 1 / 2)) with (- (PI / 2)) by field. rewrite sin_neg, sin_PI2, Rabs_Ropp. apply Rabs_R1.
      * replace (PI * (1 - 1 / 2)) with (PI / 2) by field. rewrite sin_PI2. apply Rabs_R1.
Qed.
Print Assumptions C132_nyquist_refuted.

(** every real image with odd sizes samples exactly one band-limited scene: its own interpolant; with an even size there may be none *)
Definition waves_of (sh : list Z) (h : list R -> C) : Prop :=
  exists modes : list (C * list Z), Forall (fun m => below_nyquist sh (snd m)) modes /\
    forall p, length p = length sh -> h p = fold_right Cplus (RtoC 0) (map (fun m => Cmult (fst m) (wave sh (snd m) p)) modes).
Lemma waves_0 sh : waves_of sh (fun _ => RtoC 0).
Proof. exists []. split; [constructor|reflexivity]. Qed.
Lemma waves_plus sh h k : waves_of sh h -> waves_of sh k -> waves_of sh (fun p => Cplus (h p) (k p)).
Proof.
  intros [m1 [B1 E1]] [m2 [B2 E2]]. exists (m1 ++ m2). split; [apply Forall_app; auto|]. intros p L. rewrite (E1 p L), (E2 p L). clear E1 E2 B1.
  rewrite map_app. induction m1 as [|a m1 IH]; cbn [app map fold_right]; [ring|]. rewrite <- IH. ring.
Qed.
Lemma waves_scal sh c h : waves_of sh h -> waves_of sh (fun p => Cmult c (h p)).
Proof.
  intros [m1 [B1 E1]]. exists (map (fun m => (Cmult c (fst m), snd m)) m1). split; [apply Forall_map; exact B1|]. intros p L. rewrite (E1 p L). clear E1 B1.
  induction m1 as [|a m1 IH]; cbn [map fold_right fst snd]; [ring|]. rewrite <- IH. ring.
Qed.
Lemma waves_sumC sh n h : (forall i, (0 <= i < n)%Z -> waves_of sh (h i)) -> waves_of sh (fun p => sumC n (fun i => h i p)).
Proof.
  assert (Z0 : forall n h, (n <= 0)%Z -> waves_of sh (fun p => sumC n (fun i => h i p))).
  { intros m k Hm. destruct (waves_0 sh) as [l [B E]]. exists l. split; auto. intros p L. rewrite sumC_0 by lia. apply E; auto. }
  destruct (Z_le_gt_dec 0 n) as [Hn|Hn].
  - revert h. revert n Hn. apply (natlike_ind (fun n => forall h : Z -> list R -> C, (forall i, (0 <= i < n)%Z -> waves_of sh (h i)) -> waves_of sh (fun p => sumC n (fun i => h i p)))).
    + intros h _. apply Z0. lia.
    + intros k Hk IH h H. destruct (waves_plus sh _ _ (IH h ltac:(intros; apply H; lia)) (H k ltac:(lia))) as [m [B E]]. exists m. split; auto.
      intros p L. unfold Z.succ. rewrite sumC_S by auto. apply E; auto.
  - intros _. apply Z0. lia.
Qed.
Lemma waves_sumNC sh sh' (h : list Z -> list R -> C) : (forall y, inb sh' y -> waves_of sh (h y)) -> waves_of sh (fun p => sumNC sh' (fun y => h y p)).
Proof.
  revert h. induction sh' as [|n sh' IH]; intros h H.
  - destruct (H [] ltac:(constructor)) as [m [B E]]. exists m. split; auto.
  - apply (waves_sumC sh n (fun i p => sumNC sh' (fun y => h (i :: y) p))). intros i Hi. apply IH. intros y Hy. apply H. constructor; auto.
Qed.
Lemma waves_cons n sh k h : (2 * Z.abs k < n)%Z -> waves_of sh h ->
  waves_of (n :: sh) (fun p => match p with t :: p' => Cmult (cis (2 * PI * (IZR k * t / IZR n))) (h p') | [] => RtoC 0 end).
Proof.
  intros Hk [m [B E]]. exists (map (fun a => (fst a, k :: snd a)) m). split.
  - apply Forall_map. eapply Forall_impl; [|exact B]. intros a Ha. constructor; auto.
  - intros [|t p] L; [discriminate L|]. rewrite (E p) by (cbn in L; lia). clear E B. induction m as [|a m IH]; cbn [map fold_right fst snd]; [ring|]. rewrite <- IH. cbn [wave]. ring.
Qed.
Lemma waves_ext sh h k : waves_of sh h -> (forall p, length p = length sh -> k p = h p) -> waves_of sh k.
Proof. intros [m [B E]] H. exists m. split; auto. intros p L. rewrite H; auto. Qed.
Lemma waves_dirichlet sh y : pos_shape sh -> Forall (fun n => Z.odd n = true) sh -> length y = length sh -> waves_of sh (fun p => dirichletN sh p y).
Proof.
  intros Hp. revert y. induction sh as [|n sh IH]; intros [|j y] Ho L; try discriminate L.
  - exists [(RtoC 1, [])]. split; [repeat constructor|]. intros [|t p] L'; [|discriminate L']. cbn. ring.
  - apply pos_shape_cons in Hp. destruct Hp as [Hn Hp]. inversion Ho as [|? ? O1 O2]; subst.
    assert (W := IH Hp y O2 ltac:(cbn in L; lia)).
    assert (O : (n = 2 * (n / 2) + 1)%Z) by (apply Zodd_bool_iff, Zodd_div2 in O1; rewrite Z.div2_div in O1; exact O1).
    refine (waves_ext _ _ _ (waves_scal _ (RtoC (/ IZR n)) _ (waves_sumC (n :: sh) n
      (fun i p => Cmult (cis (- (2 * PI * (IZR (i - n / 2) * IZR j / IZR n)))) (match p with t :: p' => Cmult (cis (2 * PI * (IZR (i - n / 2) * t / IZR n))) (dirichletN sh p' y) | [] => RtoC 0 end)) _)) _).
    + intros i Hi. apply waves_scal. apply (waves_cons n sh (i - n / 2) (fun p => dirichletN sh p y)); [lia|exact W].
    + intros [|t p] L'; [discriminate L'|]. cbn [dirichletN]. unfold dirichlet. rewrite <- Cmult_assoc. f_equal. rewrite <- sumC_scal_r. apply sumC_ext. intros i Hi.
      rewrite Cmult_assoc, <- cis_plus. f_equal. f_equal. unfold Rdiv. ring.
Qed.
Lemma interp_real_odd sh (a : list Z -> R) p : pos_shape sh -> all_odd sh -> length p = length sh -> trig_interp sh (fun y => RtoC (a y)) p = RtoC (trig_interpR sh a p).
Proof.
  intros Hp Ho L. rewrite <- trig_interp_Re. set (w := trig_interp sh (fun y => RtoC (a y)) p). assert (I : Im w = 0).
  { unfold w, trig_interp. rewrite Im_sumNC. apply sumNR_const0. intros y Hy. rewrite <- (Dn_dirichletN sh p y Hp L (inb_length _ _ Hy)).
    assert (T := Dn_real_odd sh (subR p (toR y)) Hp Ho). rewrite subR_length in T. unfold toR in T at 1. rewrite map_length, (inb_length _ _ Hy) in T.
    specialize (T ltac:(lia)). destruct (Dn sh (subR p (toR y))) as [u v]. unfold Im in *. cbn in *. rewrite T. ring. }
  destruct w as [u v]. unfold Im in I. cbn in I. subst v. reflexivity.
Qed.
Theorem C132_every_odd_image :
  forall sh (img : arr R), pos_shape sh -> Forall (fun n => Z.odd n = true) sh -> shape img = sh ->
  exists g, band_limited sh g /\ (forall x, inb sh x -> get img x = g (map IZR x)) /\
    (* and only one: *)
    forall g', band_limited sh g' -> (forall x, inb sh x -> get img x = g' (map IZR x)) -> forall p, length p = length sh -> g' p = g p.
Proof.
  intros sh img Hp Ho Hs.
  assert (B : band_limited sh (fun p => trig_interpR sh (get img) p)).
  { refine (waves_ext sh _ (fun p => RtoC (trig_interpR sh (get img) p)) (waves_sumNC sh sh (fun y p => Cmult (RtoC (get img y)) (dirichletN sh p y)) _) _).
    - intros y Hy. apply waves_scal, waves_dirichlet; auto. apply inb_length; auto.
    - intros p L. rewrite <- interp_real_odd by auto. reflexivity. }
  exists (fun p => trig_interpR sh (get img) p). split; [exact B|]. split.
  - intros x Hx. symmetry. assert (Lx := inb_length _ _ Hx). rewrite <- interpN_realpart by (auto; rewrite map_length; auto).
    change (map IZR x) with (toR x). rewrite interpN_int by auto. rewrite modl_small by auto. reflexivity.
  - intros g' B' E p L. assert (D := scene_near sh (get img) g' p Hp B' L). rewrite size2_zero in D by (intros y Hy; rewrite E by auto; ring).
    assert (Q2 := Rle_abs (trig_interpR sh (get img) p - g' p)). assert (Q3 := Rle_abs (- (trig_interpR sh (get img) p - g' p))). rewrite Rabs_Ropp in Q3. lra.
Qed.
Print Assumptions C132_every_odd_image.

Theorem C132_every_even_image_refuted :
  let img := mk1 2 (fun x => if (x =? 0)%Z then 1 else -1) : arr R in
  ~ exists g, band_limited [2%Z] g /\ forall x, inb [2%Z] x -> get img x = g (map IZR x).
Proof.
  intros img [g [[modes [B E]] H]].
  assert (K : forall p q, length p = 1%nat -> length q = 1%nat -> RtoC (g p) = RtoC (g q)).
  { intros [|t [|? ?]] [|t' [|? ?]] L L'; try discriminate L; try discriminate L'. rewrite (E [t] L), (E [t'] L'). clear E H. induction B as [|[c ks] m Bm B IH]; [reflexivity|].
    cbn [map fold_right fst snd]. rewrite IH. f_equal. f_equal. cbn [snd] in Bm. inversion Bm as [|? k ? ks' Hk B']; subst. inversion B'; subst.
    assert (k = 0)%Z by lia. subst k. cbn [wave]. replace (2 * PI * (0 * t / 2)) with (2 * PI * (0 * t' / 2)) by field. reflexivity. }
  assert (K0 := H [0%Z] ltac:(constructor; [lia|constructor])). assert (K1 := H [1%Z] ltac:(constructor; [lia|constructor])).
  cbn in K0, K1. assert (Q := RtoC_inj _ _ (K [0] [1] eq_refl eq_refl)). lra.
Qed.
Print Assumptions C132_every_even_image_refuted.

(** 3 + cos(2 pi (y/5 - 2x/7)) on 5x7 pixels, moved by (1/3, -1/4) *)
Example C132_nonvacuous :
  let g := fun p : list R => match p with [y; x] => 3 + cos (2 * PI * (y / 5 - 2 * x / 7)) | _ => 0 end in
  band_limited [5; 7]%Z g /\
  exists r, shiftnd false (of_R (sampled [5; 7]%Z g)) [1 / 3; - (1 / 4)] 0 1 false false true = Ok (RealArr r) /\
    forall i j, (0 <= i < 5)%Z -> (0 <= j < 7)%Z -> get r [i; j] = 3 + cos (2 * PI * ((IZR i - 1 / 3) / 5 - 2 * (IZR j - - (1 / 4)) / 7)).
Proof.
  intros g. assert (B : band_limited [5; 7]%Z g).
  { exists [(RtoC 3, [0; 0]%Z); (RtoC (/ 2), [1; -2]%Z); (RtoC (/ 2), [-1; 2]%Z)]. split.
    - repeat constructor; cbn; lia.
    - intros [|y [|x [|? ?]]] L; try discriminate L. cbn [g map fold_right fst snd wave]. rewrite !Cmult_1_r, <- !cis_plus.
      replace (2 * PI * (0 * y / 5) + 2 * PI * (0 * x / 7)) with 0 by field.
      replace (2 * PI * (1 * y / 5) + 2 * PI * (-2 * x / 7)) with (2 * PI * (y / 5 - 2 * x / 7)) by field.
      replace (2 * PI * (-1 * y / 5) + 2 * PI * (2 * x / 7)) with (- (2 * PI * (y / 5 - 2 * x / 7))) by field.
      rewrite cis_0. unfold cis. rewrite cos_neg, sin_neg. unfold Cmult, Cplus, RtoC. cbn [fst snd]. f_equal; field. }
  split; [exact B|].
  destruct (C132_shiftnd false [5; 7]%Z (sampled [5; 7]%Z g) g [1 / 3; - (1 / 4)] 1 false false ltac:(repeat constructor; lia) eq_refl eq_refl B) as [r [H1 [_ [_ [_ H5]]]]].
  exists r. split; [exact H1|]. intros i j Hi Hj. rewrite H5; [reflexivity| |apply inb2_intro; auto]. intros x _. reflexivity.
Qed.
