(** what chi2_shift does with a chi-squared map does not change when a constant is added to the map *)
From Coq Require Import ZArith Lia List Reals Lra Bool FunctionalExtensionality.
From Coquelicot Require Import Complex.
From Verif Require Import Base NDim DFT Kernel Num Py M_fast_ffts M_shift M_scale M_zoom M_downsample M_convolve M_correlate Arg M_chi2
  Spec L_shift L_scale L_zoom L_downsample Sum2 Spec2 L_correlate L_chi2 L_chi2shift.
Import ListNotations.
Open Scope R_scope.

(** two elements of the returned list agree, the entries of the upsampled map up to the constant d *)
Definition same_value (d : R) (a b : retval) : Prop :=
  match a, b with
  | RNum x, RNum y => x = y
  | RMaps xv yv m, RMaps xv' yv' m' =>
      exists s1 s2, shape xv = [s1; s2] /\ shape xv' = [s1; s2] /\ shape yv = [s1; s2] /\ shape yv' = [s1; s2] /\ shape m = [s1; s2] /\ shape m' = [s1; s2] /\
        forall i j, (0 <= i < s1)%Z -> (0 <= j < s2)%Z -> g2 xv i j = g2 xv' i j /\ g2 yv i j = g2 yv' i j /\ g2 m i j = g2 m' i j + d
  | _, _ => False
  end.
(** two calls agree: both fail alike, or both return lists that agree *)
Definition same_call (d : R) (a b : res (list retval)) : Prop :=
  match a, b with
  | Ok l, Ok l' => Forall2 (same_value d) l l'
  | Raise x, Raise y => x = y
  | _, _ => False
  end.
(** without the map the two results are equal *)
Lemma same_call_eq d a b : same_call d a b -> (forall l, a = Ok l -> forall x y m, ~ In (RMaps x y m) l) -> a = b.
Proof.
  destruct a as [l|x], b as [l'|y]; cbn [same_call]; try tauto; [|intros -> _; reflexivity].
  intros H N. specialize (N l eq_refl). f_equal. induction H as [|u v l l' S F IH]; [reflexivity|].
  f_equal.
  - destruct u, v; cbn [same_value] in S; try tauto; [congruence|]. exfalso. apply (N xvals yvals chi2). left. reflexivity.
  - apply IH. intros x y m Hin. apply (N x y m). right. exact Hin.
Qed.

Section shifted.
Variables (ny nx : Z) (m1 m2 : Z -> Z -> R) (d : R).
Hypothesis (Hy : (0 < ny)%Z) (Hx : (0 < nx)%Z).
Hypothesis (Hd : forall i j, (0 <= i < ny)%Z -> (0 <= j < nx)%Z -> m1 i j = m2 i j + d).
Lemma argmin2_shift : argmin2 ny nx m1 = argmin2 ny nx m2.
Proof. apply argmin2_mono; auto. intros i j k l Hi Hj Hk Hl. rewrite !Hd by auto. split; lra. Qed.
Lemma min2_shift : min2 ny nx m1 = min2 ny nx m2 + d.
Proof. unfold min2. rewrite argmin2_shift. destruct (argmin2_spec ny nx m2 Hy Hx) as [S1 [S2 _]]. apply Hd; auto. Qed.
Lemma area_shift thr : area ny nx m1 thr = area ny nx m2 thr.
Proof.
  unfold area. apply filter_ext_in. intros [y x] Hin. apply pixels_In in Hin. cbn [fst snd]. rewrite min2_shift, Hd by tauto.
  f_equal. ring.
Qed.
Lemma verbose_shift vb : verbose_check vb ny nx m1 = verbose_check vb ny nx m2.
Proof.
  unfold verbose_check. replace (existsb _ (pixels ny nx)) with
    (existsb (fun p => if Rlt_dec 0 (m2 (fst p) (snd p) - min2 ny nx m2) then true else false) (pixels ny nx)); [reflexivity|].
  assert (G : forall l, (forall p, In p l -> (0 <= fst p < ny)%Z /\ (0 <= snd p < nx)%Z) ->
    existsb (fun p => if Rlt_dec 0 (m2 (fst p) (snd p) - min2 ny nx m2) then true else false) l =
    existsb (fun p => if Rlt_dec 0 (m1 (fst p) (snd p) - min2 ny nx m1) then true else false) l).
  { induction l as [|p l IH]; intros Hl; [reflexivity|]. cbn [existsb]. rewrite IH by (intros q Hq; apply Hl; right; exact Hq). f_equal.
    destruct (Hl p (or_introl eq_refl)) as [A B]. rewrite (Hd (fst p) (snd p) A B), min2_shift.
    destruct (Rlt_dec 0 (m2 (fst p) (snd p) - min2 ny nx m2)), (Rlt_dec 0 (m2 (fst p) (snd p) + d - (min2 ny nx m2 + d))); try reflexivity; exfalso; lra. }
  apply G. intros [y x] H. apply pixels_In in H. exact H.
Qed.
End shifted.

Lemma errors_shift e (a1 a2 : arr R) d zf ns nf s1 s2 :
  shape a1 = [s1; s2] -> shape a2 = [s1; s2] ->
  (forall i j, (0 <= i < s1)%Z -> (0 <= j < s2)%Z -> g2 a1 i j = g2 a2 i j + d) ->
  chi2map_to_errors e a1 zf ns nf = chi2map_to_errors e a2 zf ns nf.
Proof.
  intros H1 H2 Hd. unfold chi2map_to_errors. rewrite H1, H2. destruct (Req_EM_T zf 0); [reflexivity|].
  destruct (Z.leb_spec s1 0); [reflexivity|]. destruct (Z.leb_spec s2 0); [reflexivity|]. cbn [orb].
  rewrite (argmin2_shift s1 s2 (g2 a1) (g2 a2) d) by auto.
  destruct (sigma_to_chi2 e ns nf) as [thr|]; [|reflexivity]. cbn [bind].
  rewrite (area_shift s1 s2 (g2 a1) (g2 a2) d) by auto. reflexivity.
Qed.

Lemma zoom_shift has_fftw (c1 c2 : arr R) d ny nx cy cx u s1 s2 :
  shape c1 = [ny; nx] -> shape c2 = [ny; nx] -> (0 < ny)%Z -> (0 < nx)%Z ->
  (forall i j, (0 <= i < ny)%Z -> (0 <= j < nx)%Z -> g2 c1 i j = g2 c2 i j + d) ->
  (0 < s1)%Z -> (0 < s2)%Z ->
  (exists x, forall c, c = c1 \/ c = c2 -> zoomnd has_fftw (RtoCa c) [cy; cx] (fun x => x) u (Some [s1; s2]) 1 false true true = Raise x) \/
  exists xo1 xo2 r1 r2,
    zoomnd has_fftw (RtoCa c1) [cy; cx] (fun x => x) u (Some [s1; s2]) 1 false true true = Ok (Some xo1, RealArr r1) /\
    zoomnd has_fftw (RtoCa c2) [cy; cx] (fun x => x) u (Some [s1; s2]) 1 false true true = Ok (Some xo2, RealArr r2) /\
    shape r1 = [s1; s2] /\ shape r2 = [s1; s2] /\
    forall i j, (0 <= i < s1)%Z -> (0 <= j < s2)%Z ->
      get xo1 [0%Z; i; j] = get xo2 [0%Z; i; j] /\ get xo1 [1%Z; i; j] = get xo2 [1%Z; i; j] /\ g2 r1 i j = g2 r2 i j + d.
Proof.
  intros H1 H2 Hy Hx Hd P1 P2.
  assert (Hz : forall c, shape c = [ny; nx] -> zoomnd has_fftw (RtoCa c) [cy; cx] (fun x => x) u (Some [s1; s2]) 1 false true true =
     zoom_on_pixel has_fftw (RtoCa c) [IZR (ny - 1) / 2 + cy; IZR (nx - 1) / 2 + cx] u (Some [s1; s2]) 1 false true true).
  { intros c Hc. unfold zoomnd, ndim. change (shape (RtoCa c)) with (shape c). rewrite Hc. reflexivity. }
  rewrite !Hz by auto. destruct (Req_dec u 0) as [->|Hu].
  - left. exists ZeroDivisionError. intros c Hc. assert (Hs : shape c = [ny; nx]) by (destruct Hc; subst; auto). rewrite Hz by auto.
    unfold zoom_on_pixel. change (shape (RtoCa c)) with (shape c). rewrite Hs. cbn [length Nat.eqb negb existsb].
    destruct (Z.ltb_spec s1 0); [lia|]. destruct (Z.ltb_spec s2 0); [lia|]. cbn [orb combine length Nat.eqb].
    unfold pydiv. destruct (Req_EM_T 0 0); [reflexivity|contradiction].
  - right. destruct (zoom2_ok has_fftw (RtoCa c1) ny nx (IZR (ny - 1) / 2 + cy) (IZR (nx - 1) / 2 + cx) u (Some [s1; s2]) s1 s2 1 false true true) as [xa [ra [A1 [A2 [A3 A4]]]]]; auto.
    destruct (zoom2_ok has_fftw (RtoCa c2) ny nx (IZR (ny - 1) / 2 + cy) (IZR (nx - 1) / 2 + cx) u (Some [s1; s2]) s1 s2 1 false true true) as [xb [rb [B1 [B2 [B3 B4]]]]]; auto.
    exists xa, xb, (amap Re ra), (amap Re rb). split; [exact A1|]. split; [exact B1|]. split; [exact A3|]. split; [exact B3|].
    intros i j Hi Hj. destruct (A4 i j Hi Hj) as [E1 [E2 E3]]. destruct (B4 i j Hi Hj) as [F1 [F2 F3]].
    split; [congruence|]. split; [congruence|]. unfold g2 in *. cbn [amap get]. rewrite E3, F3.
    set (p := [grid_at _ _ _ _; grid_at _ _ _ _]). assert (Lp : length p = length [ny; nx]) by reflexivity.
    change (get (RtoCa c1)) with (fun y => RtoC (get c1 y)). change (get (RtoCa c2)) with (fun y => RtoC (get c2 y)).
    rewrite (interpN_realpart [ny; nx] (get c1) p), (interpN_realpart [ny; nx] (get c2) p) by (auto using pos2).
    rewrite (tiR_ext [ny; nx] (get c1) (fun y => get c2 y + d)).
    + rewrite tiR_plus, tiR_const by (auto using pos2). reflexivity.
    + intros y Hin. destruct y as [|y0 [|y1 [|]]]; cbn [inb] in Hin; try tauto. apply Hd; tauto.
Qed.

Lemma zoom_raises has_fftw (c1 c2 : arr R) ny nx cy cx u s1 s2 :
  shape c1 = [ny; nx] -> shape c2 = [ny; nx] -> ((s1 <=? 0)%Z || (s2 <=? 0)%Z) = true ->
  match zoomnd has_fftw (RtoCa c1) [cy; cx] (fun x => x) u (Some [s1; s2]) 1 false true true,
        zoomnd has_fftw (RtoCa c2) [cy; cx] (fun x => x) u (Some [s1; s2]) 1 false true true with
  | Raise x, Raise y => x = y
  | Ok (Some _, RealArr _), Ok (Some _, RealArr _) => True
  | _, _ => False
  end.
Proof.
  intros H1 H2 Hneg. unfold zoomnd, ndim, zoom_on_pixel. change (shape (RtoCa c1)) with (shape c1). change (shape (RtoCa c2)) with (shape c2). rewrite H1, H2.
  cbn [length Nat.ltb Nat.leb Nat.eqb negb andb zipw existsb combine].
  destruct ((s1 <? 0)%Z || ((s2 <? 0)%Z || false)); [reflexivity|].
  unfold pydiv. destruct (Req_EM_T u 0); [reflexivity|]. cbn [bind].
  unfold fourier_interp2d. change (shape (RtoCa c1)) with (shape c1). change (shape (RtoCa c2)) with (shape c2). unfold ndim.
  change (shape (RtoCa c1)) with (shape c1). change (shape (RtoCa c2)) with (shape c2). rewrite H1, H2.
  destruct (get_ffts has_fftw 1 false) as [f g].
  destruct (check_outinds _ _); [|reflexivity]. cbn [bind]. destruct (check_fft [ny; nx]); [|reflexivity]. cbn [bind].
  destruct (axis_coords _ 0); [|reflexivity]. cbn [bind]. destruct (axis_coords _ 1); [|reflexivity]. cbn [bind pick_real with_xouts]. exact I.
Qed.

(** *** the main lemma *)
Lemma tail_shift e ny nx c1 a1 b1 d1 c2 a2 b2 d2 d us nf vb re rc mas mns :
  shape c1 = [ny; nx] -> shape c2 = [ny; nx] -> (0 < ny)%Z -> (0 < nx)%Z ->
  (forall i j, (0 <= i < ny)%Z -> (0 <= j < nx)%Z -> g2 c1 i j = g2 c2 i j + d) ->
  same_call d (chi2_shift_tail e [ny; nx] (Chi2All c1 a1 b1 d1) us nf vb re rc mas mns)
              (chi2_shift_tail e [ny; nx] (Chi2All c2 a2 b2 d2) us nf vb re rc mas mns).
Proof.
  intros H1 H2 Hy Hx Hd. unfold chi2_shift_tail.
  rewrite (argmin2_shift ny nx (g2 c1) (g2 c2) d) by auto. destruct (argmin2 ny nx (g2 c2)) as [ym xm].
  rewrite (verbose_shift ny nx (g2 c1) (g2 c2) d) by auto.
  replace (auto_size e ny nx (g2 c1) mns nf) with (auto_size e ny nx (g2 c2) mns nf) by (unfold auto_size; rewrite (area_shift ny nx (g2 c1) (g2 c2) d) by auto; reflexivity).
  assert (WIN : exists x, (match us with
      | UAuto => let! _ := verbose_check vb ny nx (g2 c2) in let! u := auto_factor mas (auto_size e ny nx (g2 c2) mns nf) in Ok (u, [mas; mas])
      | u => explicit_window u ny nx end) = Raise x \/ exists u s1 s2, (match us with
      | UAuto => let! _ := verbose_check vb ny nx (g2 c2) in let! u := auto_factor mas (auto_size e ny nx (g2 c2) mns nf) in Ok (u, [mas; mas])
      | u => explicit_window u ny nx end) = Ok (u, [s1; s2])).
  { destruct us as [|k|r].
    - destruct (verbose_check vb ny nx (g2 c2)) as [?|x]; cbn [bind]; [|exists x; left; reflexivity].
      destruct (auto_factor mas _) as [u|x]; cbn [bind]; [|exists x; left; reflexivity]. exists ValueError. right. exists u, mas, mas. reflexivity.
    - unfold explicit_window. destruct (pydiv _ _) as [z|x]; cbn [bind]; [|exists x; left; reflexivity]. exists ValueError. right.
      destruct (Rle_dec z 1); eexists; eexists; eexists; reflexivity.
    - unfold explicit_window. destruct (pydiv _ _) as [z|x]; cbn [bind]; [|exists x; left; reflexivity].
      destruct (Rle_dec z 1); [exists TypeError; left; reflexivity|]. exists ValueError. right. eexists. eexists. eexists. reflexivity. }
  destruct WIN as [x [W|[u [s1 [s2 W]]]]]; rewrite W; cbn [bind]; [reflexivity|].
  destruct ((s1 <=? 0)%Z || (s2 <=? 0)%Z) eqn:Hneg.
  - assert (Z := zoom_raises (e_fftw e) c1 c2 ny nx (IZR ym - cen ny) (IZR xm - cen nx) u s1 s2 H1 H2 Hneg).
    destruct (zoomnd _ (RtoCa c1) _ _ _ _ _ _ _ _) as [[[?|] [?|?]]|]; try tauto; destruct (zoomnd _ (RtoCa c2) _ _ _ _ _ _ _ _) as [[[?|] [?|?]]|]; try tauto; cbn [bind same_call]; auto.
  - apply orb_false_iff in Hneg. destruct Hneg as [N1 N2]. apply Z.leb_gt in N1. apply Z.leb_gt in N2.
    destruct (zoom_shift (e_fftw e) c1 c2 d ny nx (IZR ym - cen ny) (IZR xm - cen nx) u s1 s2 H1 H2 Hy Hx Hd N1 N2) as [[x0 Q]|[xo1 [xo2 [r1 [r2 [Z1 [Z2 [S1 [S2 V]]]]]]]]].
    + rewrite !Q by auto. reflexivity.
    + rewrite Z1, Z2. cbn [bind]. assert (Vd : forall i j, (0 <= i < s1)%Z -> (0 <= j < s2)%Z -> g2 r1 i j = g2 r2 i j + d) by (intros; apply V; auto).
      rewrite (verbose_shift s1 s2 (g2 r1) (g2 r2) d) by auto. destruct (verbose_check vb s1 s2 (g2 r2)); cbn [bind]; [|reflexivity].
      rewrite (errors_shift e r1 r2 d u 1 2 s1 s2) by auto. destruct (chi2map_to_errors e r2 u 1 2) as [[[[exl exh] eyl] eyh]|]; cbn [bind]; [|reflexivity].
      rewrite (argmin2_shift s1 s2 (g2 r1) (g2 r2) d) by auto. assert (A := argmin2_spec s1 s2 (g2 r2) N1 N2). destruct (argmin2 s1 s2 (g2 r2)) as [i j].
      destruct A as [A1 [A2 _]]. cbn [fst snd] in A1, A2. destruct (V i j A1 A2) as [V0 [V1 _]]. rewrite V0, V1. cbn [same_call app].
      constructor; [reflexivity|]. constructor; [reflexivity|]. apply Forall2_app.
      * destruct re; repeat constructor.
      * destruct rc; constructor; [|constructor]. exists s1, s2. repeat (split; [reflexivity || assumption|]). intros i' j' Hi Hj. destruct (V i' j' Hi Hj) as [W0 [W1 W2]].
        unfold g2 at 1 2 3 4. cbn [mk2 get]. rewrite W0, W1. auto.
Qed.
Lemma tail_no_map e sh r us nf vb re mas mns l : chi2_shift_tail e sh r us nf vb re false mas mns = Ok l -> forall x y m, ~ In (RMaps x y m) l.
Proof.
  unfold chi2_shift_tail. destruct r; try discriminate. destruct sh as [|ylen [|xlen [|]]]; try discriminate.
  destruct (argmin2 ylen xlen _) as [ymax xmax]. destruct (match us with UAuto => _ | UInt _ => _ | UFloat _ => _ end) as [[usfac os]|]; cbn [bind]; [|discriminate].
  destruct (zoomnd _ _ _ _ _ _ _ _ _ _) as [[[xo|] [za|za]]|]; cbn [bind]; try discriminate.
  destruct os as [|s1 [|s2 [|]]]; try discriminate. destruct ((s1 <=? 0)%Z || (s2 <=? 0)%Z); [discriminate|].
  destruct (verbose_check vb s1 s2 _); cbn [bind]; [|discriminate]. destruct (chi2map_to_errors _ _ _ _ _) as [[[[u1 u2] u3] u4]|]; cbn [bind]; [|discriminate].
  destruct (argmin2 s1 s2 _) as [i j]. intros Q x y m Hin. injection Q as <-. destruct re; cbn in Hin; intuition discriminate.
Qed.
