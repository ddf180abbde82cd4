(** Lemmas about chi2map_to_errors and chi2_shift *)
From Coq Require Import ZArith Lia List Reals Lra Bool.
From Coquelicot Require Import Complex.
From Verif Require Import Base NDim DFT Kernel Py M_fast_ffts M_shift M_scale M_zoom M_downsample M_convolve M_correlate Arg M_chi2
  Spec L_shift L_scale L_zoom L_convolve Sum2 Spec2 L_correlate L_chi2.
Import ListNotations.
Open Scope R_scope.

(** *** error bars *)
Definition inwin (ny nx : Z) (m : Z -> Z -> R) (t : R) (y x : Z) : Prop :=
  (0 <= y < ny)%Z /\ (0 <= x < nx)%Z /\ m y x < min2 ny nx m + t.

Lemma area_In ny nx m t y x : In (y, x) (area ny nx m (Fin t)) <-> inwin ny nx m t y x.
Proof.
  unfold area, inwin. rewrite filter_In, pixels_In. cbn [fst snd ltn].
  destruct (Rlt_dec (m y x - min2 ny nx m) t) as [H|H]; split; intros [A B].
  - destruct A. repeat split; try tauto; lia || lra.
  - destruct B. split; [split; lia|reflexivity].
  - discriminate.
  - destruct B. exfalso; lra.
Qed.

Lemma area_nonempty ny nx m t : (0 < ny)%Z -> (0 < nx)%Z -> 0 < t -> In (argmin2 ny nx m) (area ny nx m (Fin t)).
Proof.
  intros Hy Hx Ht. destruct (argmin2 ny nx m) as [y x] eqn:E. apply area_In.
  assert (S := argmin2_spec ny nx m Hy Hx). rewrite E in S. destruct S as [S1 [S2 _]]. cbn [fst snd] in *.
  split; [auto|]. split; [auto|]. unfold min2. rewrite E. cbn [fst snd]. lra.
Qed.

(** extreme selected coordinates *)
Definition extent (ny nx : Z) (m : Z -> Z -> R) (t : R) (ylo yhi xlo xhi : Z) : Prop :=
  (exists x, inwin ny nx m t ylo x) /\ (exists x, inwin ny nx m t yhi x) /\
  (exists y, inwin ny nx m t y xlo) /\ (exists y, inwin ny nx m t y xhi) /\
  (forall y x, inwin ny nx m t y x -> (ylo <= y <= yhi)%Z /\ (xlo <= x <= xhi)%Z).

Lemma lmin_map {A} (f : A -> R) l : l <> [] -> exists a, In a l /\ lmin (map f l) = Ok (f a) /\ forall b, In b l -> f a <= f b.
Proof.
  intros H. destruct (lmin_ok (map f l)) as [m [E [I L]]]; [destruct l; [congruence|discriminate]|].
  apply in_map_iff in I. destruct I as [a [<- Ia]]. exists a. split; [auto|]. split; [auto|]. intros b Hb. apply L. apply in_map; auto.
Qed.
Lemma lmax_map {A} (f : A -> R) l : l <> [] -> exists a, In a l /\ lmax (map f l) = Ok (f a) /\ forall b, In b l -> f b <= f a.
Proof.
  intros H. destruct (lmax_ok (map f l)) as [m [E [I L]]]; [destruct l; [congruence|discriminate]|].
  apply in_map_iff in I. destruct I as [a [<- Ia]]. exists a. split; [auto|]. split; [auto|]. intros b Hb. apply L. apply in_map; auto.
Qed.

Lemma div_le_inv a b z : 0 < z -> a / z <= b / z -> a <= b.
Proof.
  intros Hz H. apply (Rmult_le_compat_r z) in H; [|lra].
  replace (a / z * z) with a in H by (field; lra). replace (b / z * z) with b in H by (field; lra). exact H.
Qed.

Lemma errors_ok e (map0 : arr R) zf nsig nf ny nx t :
  shape map0 = [ny; nx] -> (0 < ny)%Z -> (0 < nx)%Z -> 0 < zf -> sigma_to_chi2 e nsig nf = Ok (Fin t) -> 0 < t ->
  exists ylo yhi xlo xhi, extent ny nx (g2 map0) t ylo yhi xlo xhi /\
  let p := argmin2 ny nx (g2 map0) in
  chi2map_to_errors e map0 zf nsig nf =
    Ok (IZR (snd p - xlo) / zf, IZR (xhi - snd p) / zf, IZR (fst p - ylo) / zf, IZR (yhi - fst p) / zf).
Proof.
  intros Hs Hy Hx Hz Hthr Ht. unfold chi2map_to_errors. rewrite Hs.
  destruct (Req_EM_T zf 0); [lra|]. destruct (Z.leb_spec ny 0); [lia|]. destruct (Z.leb_spec nx 0); [lia|]. cbn [orb].
  rewrite Hthr. cbn [bind].
  assert (Hp := area_nonempty ny nx (g2 map0) t Hy Hx Ht).
  set (sel := area ny nx (g2 map0) (Fin t)) in *. set (p := argmin2 ny nx (g2 map0)) in *.
  assert (Hne : sel <> []) by (intros E; rewrite E in Hp; contradiction).
  set (xx := fun p : Z * Z => (IZR (snd p) - IZR nx / 2) / zf). set (yy := fun p : Z * Z => (IZR (fst p) - IZR ny / 2) / zf).
  destruct (lmin_map xx sel Hne) as [a [Ia [Ea La]]]. destruct (lmax_map xx sel Hne) as [b [Ib [Eb Lb]]].
  destruct (lmin_map yy sel Hne) as [c [Ic [Ec Lc]]]. destruct (lmax_map yy sel Hne) as [d [Id [Ed Ld]]].
  rewrite Ea, Eb, Ec, Ed. cbn [bind].
  exists (fst c), (fst d), (snd a), (snd b). split.
  - assert (Q : forall q, In q sel -> inwin ny nx (g2 map0) t (fst q) (snd q)) by (intros [u v] Hq; apply area_In; exact Hq).
    split; [exists (snd c); apply Q; auto|]. split; [exists (snd d); apply Q; auto|].
    split; [exists (fst a); apply Q; auto|]. split; [exists (fst b); apply Q; auto|].
    intros y x Hin. apply area_In in Hin. fold sel in Hin.
    assert (A1 := La _ Hin). assert (A2 := Lb _ Hin). assert (A3 := Lc _ Hin). assert (A4 := Ld _ Hin).
    unfold xx, yy in A1, A2, A3, A4. cbn [fst snd] in *.
    apply div_le_inv in A1, A2, A3, A4; auto.
    repeat split; apply le_IZR; lra.
  - f_equal. unfold xx, yy. rewrite !minus_IZR. repeat (f_equal; [|field; lra]). field; lra.
Qed.

(** *** linearity and equivariance of the real interpolant in 2-D *)
Lemma tiR_ext sh a b p : (forall y, inb sh y -> a y = b y) -> trig_interpR sh a p = trig_interpR sh b p.
Proof. intros H. apply sumNR_ext. intros y Hy. rewrite H by auto. reflexivity. Qed.
Lemma tiR_plus sh a b p : trig_interpR sh (fun y => a y + b y) p = trig_interpR sh a p + trig_interpR sh b p.
Proof. unfold trig_interpR. rewrite <- sumNR_plus. apply sumNR_ext. intros; ring. Qed.
Lemma tiR_scal sh c a p : trig_interpR sh (fun y => c * a y) p = c * trig_interpR sh a p.
Proof. unfold trig_interpR. rewrite <- sumNR_scal. apply sumNR_ext. intros; ring. Qed.
Lemma tiR_const sh c p : pos_shape sh -> length p = length sh -> trig_interpR sh (fun _ => c) p = c.
Proof.
  intros Hp Hl. unfold trig_interpR. rewrite sumNR_scal.
  assert (E : sumNC sh (fun z => dirichletN sh p z) = RtoC 1).
  { rewrite <- (Dn_sum sh p Hp Hl). apply sumNC_ext. intros y Hy. rewrite Dn_dirichletN; auto. apply inb_length; auto. }
  apply (f_equal Re) in E. rewrite Re_sumNC in E. change (Re (RtoC 1)) with 1 in E.
  rewrite E. ring.
Qed.
Lemma tiR_sum2 sh ny nx (a : Z -> Z -> list Z -> R) p :
  trig_interpR sh (fun y => sum2 ny nx (fun i j => a i j y)) p = sum2 ny nx (fun i j => trig_interpR sh (a i j) p).
Proof.
  unfold trig_interpR, sum2.
  rewrite (sumNR_ext sh _ (fun y => sumR ny (fun i => sumR nx (fun j => a i j y * Re (dirichletN sh p y))))).
  2:{ intros y Hy. rewrite <- sumR_scal_r. apply sumR_ext. intros i Hi. rewrite <- sumR_scal_r. reflexivity. }
  revert p a. assert (G : forall (F : Z -> Z -> list Z -> R), sumNR sh (fun y => sumR ny (fun i => sumR nx (fun j => F i j y))) =
     sumR ny (fun i => sumR nx (fun j => sumNR sh (F i j)))).
  { intros F.
    assert (S1 : forall m (H : Z -> list Z -> R), sumNR sh (fun y => sumR m (fun i => H i y)) = sumR m (fun i => sumNR sh (H i))).
    { intros m H. apply (sumNR_swap sh [m] (fun y i => match i with [k] => H k y | _ => 0 end)). }
    rewrite (S1 ny (fun i y => sumR nx (fun j => F i j y))). apply sumR_ext. intros i Hi. apply (S1 nx (F i)). }
  intros p a. apply (G (fun i j y => a i j y * Re (dirichletN sh p y))).
Qed.

Lemma interpN_shift sh a (c : list Z) p : pos_shape sh -> length c = length sh -> length p = length sh ->
  interpN sh (fun y => a (modl sh (addl y c))) p = interpN sh a (addR p (toR c)).
Proof.
  intros Hp Hc Hl. unfold interpN.
  rewrite <- (sumNC_mod_shift sh (fun y => Cmult (a y) (Dn sh (subR (toR y) (addR p (toR c))))) c) by auto.
  apply sumNC_ext. intros y Hy. f_equal.
  assert (Hly := inb_length _ _ Hy).
  (* Dn (y - p) = Dn ((y+c) mod n - (p+c)) *)
  clear a Hy. revert c p y Hc Hl Hly. induction sh as [|n sh IH]; intros [|c cs] [|p ps] [|y ys] Hc Hl Hly; simpl in *; try discriminate; auto.
  apply pos_shape_cons in Hp as Hp'. destruct Hp' as [Hn Hp'].
  change (Dn (n :: sh) (IZR y - p :: subR (toR ys) ps) = Dn (n :: sh) (IZR ((y + c) mod n) - (p + IZR c) :: subR (toR (modl sh (addl ys cs))) (addR ps (toR cs)))).
  rewrite !Dn_cons by auto. f_equal.
  - rewrite <- (D1_period n (IZR ((y + c) mod n) - (p + IZR c)) ((y + c) / n)) by auto. f_equal.
    assert (E : (y + c = n * ((y + c) / n) + (y + c) mod n)%Z) by (apply Z.div_mod; lia).
    apply (f_equal IZR) in E. rewrite !plus_IZR, mult_IZR in E. lra.
  - apply IH; auto.
Qed.
Lemma tiR_shift sh (a : list Z -> R) (c : list Z) p : pos_shape sh -> length c = length sh -> length p = length sh ->
  trig_interpR sh (fun y => a (modl sh (addl y c))) p = trig_interpR sh a (addR p (toR c)).
Proof.
  intros Hp Hc Hl. rewrite <- !interpN_realpart by (auto; rewrite addR_length, toR_length; lia).
  f_equal. apply (interpN_shift sh (fun y => RtoC (a y)) c p); auto.
Qed.


Lemma pos2 ny nx : (0 < ny)%Z -> (0 < nx)%Z -> pos_shape [ny; nx].
Proof. repeat constructor; auto. Qed.

Lemma inb2' ny nx y : inb [ny; nx] y -> exists i j, y = [i; j] /\ (0 <= i < ny)%Z /\ (0 <= j < nx)%Z.
Proof. intros H. destruct y as [|i [|j [|k y]]]; simpl in H; try tauto. exists i, j. tauto. Qed.

Lemma fshift_shifted ny nx f ty tx i j : (0 < ny)%Z -> (0 < nx)%Z ->
  fshift ny nx f ty tx i j = Re (shifted [ny; nx] (fun y => RtoC (img2 f y)) [ty; tx] 0 [i; j]).
Proof.
  intros Hy Hx. unfold fshift, shifted. rewrite Ropp_0, cis_0, Cmult_1_l, Dn_interp by (auto using pos2). rewrite trig_interp_Re. reflexivity.
Qed.

Lemma fshift_energy ny nx f ty tx : (0 < ny)%Z -> (0 < nx)%Z ->
  sum2 ny nx (fun i j => (fshift ny nx f ty tx i j) ^ 2) <= sum2 ny nx (fun i j => (f i j) ^ 2) /\
  (Z.odd ny = true -> Z.odd nx = true -> sum2 ny nx (fun i j => (fshift ny nx f ty tx i j) ^ 2) = sum2 ny nx (fun i j => (f i j) ^ 2)).
Proof.
  intros Hy Hx. assert (Hp := pos2 ny nx Hy Hx).
  assert (E := shifted_energy [ny; nx] (fun y => RtoC (img2 f y)) [ty; tx] 0 Hp eq_refl).
  rewrite !sum2_sumNR in E.
  assert (E2 : sum2 ny nx (fun i j => Cmod (RtoC (img2 f [i; j])) ^ 2) = sum2 ny nx (fun i j => (f i j) ^ 2)).
  { apply sum2_ext. intros i j Hi Hj. cbn [img2]. rewrite Cmod_R. rewrite pow2_abs. reflexivity. }
  rewrite E2 in E.
  assert (R1 : forall z, (Re z) ^ 2 <= Cmod z ^ 2).
  { intros z. unfold Cmod, Re. rewrite <- (Rsqr_pow2 (sqrt _)), Rsqr_sqrt by nra. nra. }
  assert (R2 : forall z, Im z = 0 -> Cmod z ^ 2 = (Re z) ^ 2).
  { unfold Cmod, Re, Im. intros z H. rewrite <- (Rsqr_pow2 (sqrt _)), Rsqr_sqrt by nra. rewrite H. ring. }
  split.
  - rewrite <- E. apply sum2_le. intros i j Hi Hj. rewrite fshift_shifted by auto. apply R1.
  - intros Oy Ox. rewrite <- E. apply sum2_ext. intros i j Hi Hj. rewrite fshift_shifted by auto. symmetry. apply R2.
    apply shifted_real_odd; auto. { repeat constructor; auto. } simpl; tauto.
Qed.


(** the interpolated chi2 map, in shift coordinates *)
Lemma interp_chi2 ny nx ref img s (Y X : R) (cy cx : Z) : (0 < ny)%Z -> (0 < nx)%Z -> s <> 0 ->
  trig_interpR [ny; nx] (img2 (fun k l => chi2_of ny nx ref img (fun _ _ => s) (cy - k) (cx - l))) [Y; X] =
  chi2c ny nx ref img s (IZR cy - Y) (IZR cx - X) +
  (sum2 ny nx (fun i j => (ref i j) ^ 2) - sum2 ny nx (fun i j => (fshift ny nx ref (IZR cy - Y) (IZR cx - X) i j) ^ 2)) / s ^ 2.
Proof.
  intros Hy Hx Hs. assert (Hp := pos2 ny nx Hy Hx).
  set (A := (sum2 ny nx (fun i j => (img i j) ^ 2) + sum2 ny nx (fun i j => (ref i j) ^ 2)) / s ^ 2).
  rewrite (tiR_ext _ _ (fun y => A + (-2 / s ^ 2) * sum2 ny nx (fun i j => img i j * img2 ref (modl [ny; nx] (addl y [i - cy; j - cx]%Z))))).
  2:{ intros y Hin. apply inb2' in Hin. destruct Hin as [k [l [-> [Hk Hl]]]]. cbn [img2 addl modl zipw]. unfold chi2_of.
      change (pixel_sum ny nx) with (sum2 ny nx).
      assert (E : sum2 ny nx (fun i j => (ref i j) ^ 2) = sum2 ny nx (fun i j => (ref ((i - (cy - k)) mod ny)%Z ((j - (cx - l)) mod nx)%Z) ^ 2)).
      { symmetry. apply (sum2_shift ny nx (fun i j => ref i j ^ 2) (- (cy - k)) (- (cx - l))); auto. }
      unfold A. rewrite E. unfold Rdiv at 2. rewrite <- !sum2_plus, <- sum2_scal_r, <- sum2_scal, <- sum2_plus.
      apply sum2_ext. intros i j Hi Hj.
      replace (k + (i - cy))%Z with (i - (cy - k))%Z by lia. replace (l + (j - cx))%Z with (j - (cx - l))%Z by lia.
      cbn [img2]. field. auto. }
  rewrite tiR_plus, tiR_const by auto. rewrite tiR_scal, tiR_sum2.
  rewrite (sum2_ext ny nx _ (fun i j => img i j * fshift ny nx ref (IZR cy - Y) (IZR cx - X) i j)).
  2:{ intros i j Hi Hj. rewrite tiR_scal. f_equal. rewrite (tiR_shift [ny; nx] (img2 ref) [i - cy; j - cx]%Z [Y; X]) by auto.
      unfold fshift. f_equal. cbn [addR zipw toR map]. rewrite !minus_IZR. f_equal; [|f_equal]; ring. }
  unfold chi2c, A. change (pixel_sum ny nx) with (sum2 ny nx).
  set (S := fshift ny nx ref (IZR cy - Y) (IZR cx - X)).
  rewrite (sum2_ext ny nx (fun i j => ((img i j - S i j) / s) ^ 2)
     (fun i j => / s ^ 2 * ((img i j) ^ 2 + (S i j) ^ 2 - 2 * (img i j * S i j)))) by (intros; field; auto).
  rewrite sum2_scal, sum2_minus, sum2_plus, sum2_scal. field. auto.
Qed.

(** *** chi2_shift *)
Lemma cen_int n : cen n = IZR ((n - 1) / 2).
Proof.
  unfold cen. destruct (Z.eqb_spec (n mod 2) 0) as [E|E].
  - assert (H : (n = 2 * ((n - 1) / 2) + 2)%Z) by (Z.to_euclidean_division_equations; lia).
    apply (f_equal IZR) in H. rewrite plus_IZR, mult_IZR in H. lra.
  - assert (H : (n = 2 * ((n - 1) / 2) + 1)%Z) by (Z.to_euclidean_division_equations; lia).
    apply (f_equal IZR) in H. rewrite plus_IZR, mult_IZR in H. lra.
Qed.

(** centre of the zoomed window, in chi2-map pixels, when the coarse minimum is at pixel m *)
Definition zcen (n m : Z) : R := (IZR n - 1) / 2 + (IZR m - cen n).
Lemma zcen_val n m : zcen n m = IZR m + (if Z.even n then 1 / 2 else 0).
Proof.
  unfold zcen. rewrite cen_int. destruct (Z.even n) eqn:E.
  - assert (H : (n = 2 * ((n - 1) / 2) + 2)%Z) by (apply Z.even_spec in E; destruct E as [k ->]; Z.to_euclidean_division_equations; lia).
    apply (f_equal IZR) in H. rewrite plus_IZR, mult_IZR in H. lra.
  - assert (O : Z.odd n = true) by (rewrite <- Z.negb_even, E; reflexivity).
    assert (H : (n = 2 * ((n - 1) / 2) + 1)%Z) by (apply Z.odd_spec in O; destruct O as [k ->]; Z.to_euclidean_division_equations; lia).
    apply (f_equal IZR) in H. rewrite plus_IZR, mult_IZR in H. lra.
Qed.

(** the window and factor chi2_shift ends up with *)
Definition window (e : env) (us : usarg) (ny nx : Z) (chi2 : Z -> Z -> R) (mas : Z) (max_nsig nfitted : R) : res (R * list Z) :=
  match us with
  | UAuto => let! u := auto_factor mas (auto_size e ny nx chi2 max_nsig nfitted) in Ok (u, [mas; mas])
  | u => explicit_window u ny nx
  end.

(** shift (in the returned sign) of node j of an s-node grid with spacing 1/u on an axis of n pixels, coarse minimum at m *)
Definition node (n m s : Z) (u : R) (j : Z) : R := cen n - grid_at (zcen n m) u s j.

Lemma chi2_shift_tail_ok e us nf re rc mas mns ny nx chi2 t1 t2 t3 u s1 s2 t :
  (0 < ny)%Z -> (0 < nx)%Z ->
  shape chi2 = [ny; nx] ->
  window e us ny nx (g2 chi2) mas mns nf = Ok (u, [s1; s2]) -> 0 < u -> (0 < s1)%Z -> (0 < s2)%Z ->
  sigma_to_chi2 e 1 2 = Ok (Fin t) -> 0 < t ->
  let '(ym, xm) := argmin2 ny nx (g2 chi2) in
  let M := fun i j => trig_interpR [ny; nx] (get chi2) [grid_at (zcen ny ym) u s1 i; grid_at (zcen nx xm) u s2 j] in
  exists ups i j ylo yhi xlo xhi,
    (i, j) = argmin2 s1 s2 M /\ shape ups = [s1; s2] /\
    (forall a b, (0 <= a < s1)%Z -> (0 <= b < s2)%Z -> g2 ups a b = M a b) /\
    extent s1 s2 M t ylo yhi xlo xhi /\
    exists xv yv, shape xv = [s1; s2] /\ shape yv = [s1; s2] /\
    (forall a b, (0 <= a < s1)%Z -> (0 <= b < s2)%Z -> g2 xv a b = - node nx xm s2 u b /\ g2 yv a b = - node ny ym s1 u a) /\
    chi2_shift_tail e [ny; nx] (Chi2All chi2 t1 t2 t3) us nf false re rc mas mns =
    Ok ([RNum (node nx xm s2 u j); RNum (node ny ym s1 u i)] ++
        (if re then [RNum (IZR (xhi - xlo) / u / 2); RNum (IZR (yhi - ylo) / u / 2)] else []) ++
        (if rc then [RMaps xv yv ups] else [])).
Proof.
  intros Hy Hx Hsc Hw Hu H1 H2 Hthr Ht.
  destruct (argmin2 ny nx (g2 chi2)) as [ym xm] eqn:Ea. intros M.
  destruct (zoom2_ok (e_fftw e) (RtoCa chi2) ny nx (zcen ny ym) (zcen nx xm) u (Some [s1; s2]) s1 s2 1 false true true)
    as [xs [r [Z1 [Z2 [Z3 Z4]]]]]; auto; try lra.
  set (ups := amap Re r).
  assert (HM : forall a c, (0 <= a < s1)%Z -> (0 <= c < s2)%Z -> g2 ups a c = M a c).
  { intros a c Ha Hc. unfold g2, ups. cbn [amap get]. destruct (Z4 a c Ha Hc) as [_ [_ Z5]]. unfold g2 in Z5. rewrite Z5.
    unfold M. rewrite <- interpN_realpart by auto using pos2. reflexivity. }
  assert (Hups : shape ups = [s1; s2]) by exact Z3.
  assert (HA : argmin2 s1 s2 (g2 ups) = argmin2 s1 s2 M) by (apply argmin2_ext; auto).
  destruct (argmin2 s1 s2 M) as [i j] eqn:Ei.
  destruct (errors_ok e ups u 1 2 s1 s2 t) as [ylo [yhi [xlo [xhi [X1 X2]]]]]; auto.
  assert (Hij : (0 <= i < s1)%Z /\ (0 <= j < s2)%Z).
  { assert (S := argmin2_spec s1 s2 M H1 H2). rewrite Ei in S. destruct S as [S1 [S2 _]]. auto. }
  exists ups, i, j, ylo, yhi, xlo, xhi. split; [reflexivity|]. split; [auto|]. split; [auto|].
  assert (Hmin : min2 s1 s2 (g2 ups) = min2 s1 s2 M).
  { unfold min2. rewrite HA, Ei. cbn [fst snd]. apply HM; tauto. }
  split.
  { assert (W : forall y x, inwin s1 s2 (g2 ups) t y x <-> inwin s1 s2 M t y x).
    { intros y x. unfold inwin. rewrite Hmin. split; intros [A [B D]]; (split; [auto|split; [auto|]]); rewrite HM in * by auto; auto. }
    destruct X1 as [[x1 B1] [[x2 B2] [[y3 B3] [[y4 B4] B5]]]].
    split; [exists x1; apply W; auto|]. split; [exists x2; apply W; auto|]. split; [exists y3; apply W; auto|]. split; [exists y4; apply W; auto|].
    intros y x Hin. apply B5. apply W; auto. }
  exists (mk2 s1 s2 (fun i j => get xs [1%Z; i; j] - cen nx)), (mk2 s1 s2 (fun i j => get xs [0%Z; i; j] - cen ny)).
  split; [reflexivity|]. split; [reflexivity|]. split.
  { intros a c Ha Hc. destruct (Z4 a c Ha Hc) as [G0 [G1 _]]. unfold g2, mk2; cbn [get]. rewrite G0, G1. unfold node. split; ring. }
  unfold chi2_shift_tail. rewrite Ea.
  assert (Hwin : (match us with
      | UAuto => let! _ := verbose_check false ny nx (g2 chi2) in
                 let! u := auto_factor mas (auto_size e ny nx (g2 chi2) mns nf) in
                 Ok (u, [mas; mas])
      | u => explicit_window u ny nx
      end) = Ok (u, [s1; s2])) by (destruct us; exact Hw).
  rewrite Hwin. cbn [bind].
  assert (Hz : zoomnd (e_fftw e) (RtoCa chi2) [IZR ym - cen ny; IZR xm - cen nx] (fun x => x) u (Some [s1; s2]) 1 false true true =
               Ok (with_xouts true xs (pick_real true r))).
  { unfold zoomnd. unfold ndim. change (shape (RtoCa chi2)) with (shape chi2). rewrite Hsc.
    cbn [length Nat.ltb Nat.leb Nat.eqb negb andb zipw].
    rewrite <- Z1. unfold zcen. rewrite !minus_IZR. reflexivity. }
  rewrite Hz. cbn [bind with_xouts pick_real]. fold ups.
  destruct (Z.leb_spec s1 0); [lia|]. destruct (Z.leb_spec s2 0); [lia|]. cbn [orb]. unfold verbose_check. cbn [andb bind].
  cbv zeta in X2. rewrite HA in X2. cbn [fst snd] in X2. rewrite X2. cbn [bind]. rewrite HA.
  destruct (Z4 i j) as [G0 [G1 _]]; [tauto|tauto|]. rewrite G0, G1. f_equal.
  assert (N1 : - (grid_at (zcen nx xm) u s2 j - cen nx) = node nx xm s2 u j) by (unfold node; ring).
  assert (N2 : - (grid_at (zcen ny ym) u s1 i - cen ny) = node ny ym s1 u i) by (unfold node; ring).
  rewrite N1, N2.
  assert (E3 : (IZR (j - xlo) / u + IZR (xhi - j) / u) / 2 = IZR (xhi - xlo) / u / 2) by (rewrite !minus_IZR; field; lra).
  assert (E4 : (IZR (i - ylo) / u + IZR (yhi - i) / u) / 2 = IZR (yhi - ylo) / u / 2) by (rewrite !minus_IZR; field; lra).
  destruct re; rewrite ?E3, ?E4; reflexivity.
Qed.
Lemma chi2_shift_ok e im1 im2 err us b nt np zm nf re rc mas mns huge ny nx chi2 t1 t2 t3 u s1 s2 t :
  shape im1 = [ny; nx] -> (0 < ny)%Z -> (0 < nx)%Z ->
  chi2n_map e im1 im2 err b nt zm np true false huge = Ok (Chi2All chi2 t1 t2 t3) -> shape chi2 = [ny; nx] ->
  window e us ny nx (g2 chi2) mas mns nf = Ok (u, [s1; s2]) -> 0 < u -> (0 < s1)%Z -> (0 < s2)%Z ->
  sigma_to_chi2 e 1 2 = Ok (Fin t) -> 0 < t ->
  let '(ym, xm) := argmin2 ny nx (g2 chi2) in
  let M := fun i j => trig_interpR [ny; nx] (get chi2) [grid_at (zcen ny ym) u s1 i; grid_at (zcen nx xm) u s2 j] in
  exists ups i j ylo yhi xlo xhi,
    (i, j) = argmin2 s1 s2 M /\ shape ups = [s1; s2] /\
    (forall a b, (0 <= a < s1)%Z -> (0 <= b < s2)%Z -> g2 ups a b = M a b) /\
    extent s1 s2 M t ylo yhi xlo xhi /\
    exists xv yv, shape xv = [s1; s2] /\ shape yv = [s1; s2] /\
    (forall a b, (0 <= a < s1)%Z -> (0 <= b < s2)%Z -> g2 xv a b = - node nx xm s2 u b /\ g2 yv a b = - node ny ym s1 u a) /\
    chi2_shift e im1 im2 err us b nt np zm nf false re rc mas mns huge =
    Ok ([RNum (node nx xm s2 u j); RNum (node ny ym s1 u i)] ++
        (if re then [RNum (IZR (xhi - xlo) / u / 2); RNum (IZR (yhi - ylo) / u / 2)] else []) ++
        (if rc then [RMaps xv yv ups] else [])).
Proof.
  intros Hs Hy Hx Hmap Hsc Hw Hu H1 H2 Hthr Ht. unfold chi2_shift. rewrite Hmap, Hs. cbn [bind].
  apply (chi2_shift_tail_ok e us nf re rc mas mns ny nx chi2 t1 t2 t3 u s1 s2 t); auto.
Qed.
