(** C115: the default call of chi2_shift (upsample_factor='auto', return_error=True) with every pixel operation rounded *)
From Coq Require Import ZArith Lia List Reals Lra Bool.
From Coquelicot Require Import Complex.
From Verif Require Import Base NDim DFT Kernel Num Py Sum2 M_fast_ffts M_shift M_scale M_zoom M_upsample M_convolve M_correlate Arg M_chi2 M_xcorr M_register M_rounding M_rounding2 M_rounding3 M_rounding4
  Spec L_shift L_scale L_upsample L_convolve Spec2 Spec3 Spec4 L_correlate L_chi2 L_zoom L_register L_register2 L_register3
  L_chi2shift L_fshift L_xcorr P_xcorr P_xcorr2 P_xcorr3 P_chi2map P_chi2errors P_chi2shift P_chi2shift2 P_register P_noise P_rounding P_rounding2 L_iterzoom2 L_rounding3 P_rounding3.
Import ListNotations.
Open Scope R_scope.

(** delta, known up to 2d and then rounded, is clearly below or clearly above the level *)
Definition clear_of (eps d level delta : R) : Prop := (delta + 2 * d) * (1 + eps) < level \/ level < (delta - 2 * d) * (1 - eps).
(** the level for the automatic factor *)
Definition auto_level (e : env) (max_nsig nfitted : R) : num := if e_scipy e then e_ppf e max_nsig nfitted else Fin (26088233328527037 / 10000000000000000).

Lemma min2_near ny nx (c c' : Z -> Z -> R) d : (0 < ny)%Z -> (0 < nx)%Z -> (forall k l, (0 <= k < ny)%Z -> (0 <= l < nx)%Z -> Rabs (c' k l - c k l) <= d) ->
  Rabs (min2 ny nx c' - min2 ny nx c) <= d.
Proof.
  intros Hy Hx H. unfold min2. destruct (argmin2_spec ny nx c Hy Hx) as [A1 [A2 [A3 _]]]. destruct (argmin2_spec ny nx c' Hy Hx) as [B1 [B2 [B3 _]]].
  set (p := argmin2 ny nx c) in *. set (q := argmin2 ny nx c') in *.
  assert (P := H _ _ A1 A2). assert (Q := H _ _ B1 B2). assert (P3 := A3 _ _ B1 B2). assert (Q3 := B3 _ _ A1 A2).
  apply Rcomplements.Rabs_le_between in P. apply Rcomplements.Rabs_le_between in Q. apply Rabs_le. lra.
Qed.
Lemma area_same S eps n ny nx (c c' : Z -> Z -> R) d lv : accurate_scalar eps n S -> eps <= 1 / 2 -> 0 <= d -> (0 < ny)%Z -> (0 < nx)%Z ->
  (forall k l, (0 <= k < ny)%Z -> (0 <= l < nx)%Z -> Rabs (c' k l - c k l) <= d) ->
  (forall k l, (0 <= k < ny)%Z -> (0 <= l < nx)%Z -> clear_of eps d lv (c k l - min2 ny nx c)) ->
  area_rd S ny nx c' (Fin lv) = area ny nx c (Fin lv).
Proof.
  intros HS He Hd Hy Hx H K. unfold area_rd, area. apply filter_ext_in. intros [k l] Hin. apply pixels_In in Hin. destruct Hin as [Hk Hl]. cbn [fst snd ltn].
  assert (e0 := proj1 HS). assert (R1 := proj1 (proj2 HS) (c' k l - min2 ny nx c')). assert (M := min2_near ny nx c c' d Hy Hx H). specialize (H k l Hk Hl). specialize (K k l Hk Hl).
  assert (P0 : 0 <= c k l - min2 ny nx c).
  { destruct (argmin2_spec ny nx c Hy Hx) as [_ [_ [A3 _]]]. specialize (A3 k l Hk Hl). unfold min2. lra. }
  assert (P1 : 0 <= c' k l - min2 ny nx c').
  { destruct (argmin2_spec ny nx c' Hy Hx) as [_ [_ [A3 _]]]. specialize (A3 k l Hk Hl). unfold min2. lra. }
  rewrite (Rabs_right (c' k l - _)) in R1 by lra.
  apply Rcomplements.Rabs_le_between in H. apply Rcomplements.Rabs_le_between in M. apply Rcomplements.Rabs_le_between in R1.
  set (D := c k l - min2 ny nx c) in *. set (D' := c' k l - min2 ny nx c') in *. assert (Q1 : D' <= D + 2 * d) by (unfold D, D'; lra). assert (Q2 : D - 2 * d <= D') by (unfold D, D'; lra).
  clearbody D D'. destruct K as [K|K].
  - assert (D' * (1 + eps) <= (D + 2 * d) * (1 + eps)) by (apply Rmult_le_compat_r; lra).
    assert (0 <= (D + 2 * d) * eps) by (apply Rmult_le_pos; lra).
    destruct (Rlt_dec (sa_rd S D') lv); destruct (Rlt_dec D lv); try reflexivity; exfalso; lra.
  - assert (T : (D - 2 * d) * (1 - eps) <= D' * (1 - eps)) by (apply Rmult_le_compat_r; lra).
    assert (T2 : (D - 2 * d) * (1 - eps) <= D).
    { destruct (Rle_lt_dec 0 (D - 2 * d)) as [N|N].
      - assert (0 <= (D - 2 * d) * eps) by (apply Rmult_le_pos; lra). lra.
      - assert (0 <= (2 * d - D) * (1 - eps)) by (apply Rmult_le_pos; lra). lra. }
    destruct (Rlt_dec (sa_rd S D') lv); destruct (Rlt_dec D lv); try reflexivity; exfalso; lra.
Qed.

Lemma area_rd_min S eps n ny nx c t : accurate_scalar eps n S -> (0 < ny)%Z -> (0 < nx)%Z -> 0 < t -> area_rd S ny nx c (Fin t) <> [].
Proof.
  intros HS Hy Hx Ht E. destruct (argmin2_spec ny nx c Hy Hx) as [A1 [A2 _]].
  assert (I : In (argmin2 ny nx c) (area_rd S ny nx c (Fin t))); [|rewrite E in I; exact I].
  unfold area_rd. apply filter_In. split; [destruct (argmin2 ny nx c); apply pixels_In; auto|]. unfold min2. rewrite Rminus_eq_0.
  assert (R1 := proj1 (proj2 HS) 0). rewrite Rabs_R0, Rmult_0_r in R1. apply Rcomplements.Rabs_le_between in R1. cbn [ltn]. destruct (Rlt_dec (sa_rd S 0) t); [reflexivity|exfalso; lra].
Qed.
Lemma errors_rd_ok S eps n e ups u s1 s2 t : accurate_scalar eps n S -> shape ups = [s1; s2] -> (0 < s1)%Z -> (0 < s2)%Z -> 0 < u -> sigma_to_chi2 e 1 2 = Ok (Fin t) -> 0 < t ->
  exists a b c d, chi2map_to_errors_rd S e ups u 1 2 = Ok (a, b, c, d).
Proof.
  intros HS Hu H1 H2 U0 Ht T0. unfold chi2map_to_errors_rd. rewrite Hu. destruct (Req_EM_T u 0); [lra|]. destruct (Z.leb_spec s1 0); [lia|]. destruct (Z.leb_spec s2 0); [lia|]. cbn [orb].
  rewrite Ht. cbn [bind]. assert (N := area_rd_min S eps n s1 s2 (g2 ups) t HS H1 H2 T0). set (sel := area_rd S s1 s2 (g2 ups) (Fin t)) in *. clearbody sel.
  set (xx := fun p : Z * Z => (IZR (snd p) - IZR s2 / 2) / u). set (yy := fun p : Z * Z => (IZR (fst p) - IZR s1 / 2) / u).
  destruct (lmin_map xx sel N) as [a [_ [-> _]]]. destruct (lmax_map xx sel N) as [b [_ [-> _]]]. destruct (lmin_map yy sel N) as [c [_ [-> _]]]. destruct (lmax_map yy sel N) as [d [_ [-> _]]].
  cbn [bind]. repeat eexists.
Qed.
Lemma errors_rd_same S e (ups' ups : arr R) u s1 s2 t : shape ups' = [s1; s2] -> shape ups = [s1; s2] -> argmin2 s1 s2 (g2 ups') = argmin2 s1 s2 (g2 ups) ->
  sigma_to_chi2 e 1 2 = Ok (Fin t) -> area_rd S s1 s2 (g2 ups') (Fin t) = area s1 s2 (g2 ups) (Fin t) ->
  chi2map_to_errors_rd S e ups' u 1 2 = chi2map_to_errors e ups u 1 2.
Proof. intros H1 H2 H3 H4 H5. unfold chi2map_to_errors_rd, chi2map_to_errors. rewrite H1, H2, H3, H4. cbn [bind]. rewrite H5. reflexivity. Qed.

(** the window and factor from the rounded map *)
Definition window_rd (S : sarith) (e : env) (us : usarg) (ny nx : Z) (chi2 : Z -> Z -> R) (mas : Z) (max_nsig nfitted : R) : res (R * list Z) :=
  match us with
  | UAuto => let! u := auto_factor mas (auto_size_rd S e ny nx chi2 max_nsig nfitted) in Ok (u, [mas; mas])
  | u => explicit_window u ny nx
  end.
Lemma window_same S eps n e us ny nx (c c' : Z -> Z -> R) mas mns nf d : accurate_scalar eps n S -> eps <= 1 / 2 -> 0 <= d -> (0 < ny)%Z -> (0 < nx)%Z ->
  (forall k l, (0 <= k < ny)%Z -> (0 <= l < nx)%Z -> Rabs (c' k l - c k l) <= d) ->
  (us = UAuto -> forall k l, (0 <= k < ny)%Z -> (0 <= l < nx)%Z -> match auto_level e mns nf with Fin lv => clear_of eps d lv (c k l - min2 ny nx c) | NaN => True end) ->
  window_rd S e us ny nx c' mas mns nf = window e us ny nx c mas mns nf.
Proof.
  intros HS He Hd Hy Hx H K. destruct us; try reflexivity. specialize (K eq_refl). unfold window_rd, window. f_equal. f_equal. unfold auto_size_rd, auto_size.
  assert (E : area_rd S ny nx c' (m_auto e mns nf) = area ny nx c (m_auto e mns nf)); [|rewrite E; reflexivity].
  change (m_auto e mns nf) with (auto_level e mns nf). destruct (auto_level e mns nf) as [lv|].
  - apply (area_same S eps n ny nx c c' d lv HS He Hd Hy Hx H K).
  - unfold area_rd, area. apply filter_ext. reflexivity.
Qed.

(** the tail: everything but the error bars *)
Lemma tail_all_near B S eps T e us nf re rc mas mns ny nx c c' t1 t2 t3 u s1 s2 d :
  (0 < ny)%Z -> (0 < nx)%Z -> shape c = [ny; nx] -> shape c' = [ny; nx] -> 0 <= d ->
  (forall k l, (0 <= k < ny)%Z -> (0 <= l < nx)%Z -> Rabs (g2 c' k l - g2 c k l) <= d) ->
  accurate_zoom eps T [ny; nx] B -> window_rd S e us ny nx (g2 c') mas mns nf = Ok (u, [s1; s2]) -> 0 < u -> (0 < s1)%Z -> (0 < s2)%Z ->
  phase_room T ny s1 u -> phase_room T nx s2 u ->
  exists ym xm i j ups xv yv, is_argmin2 ny nx (g2 c') (ym, xm) /\ shape ups = [s1; s2] /\ is_argmin2 s1 s2 (g2 ups) (i, j) /\
    (forall y x, (0 <= y < s1)%Z -> (0 <= x < s2)%Z -> Rabs (g2 ups y x - chi2_at ny nx c (grid_shift ny ym s1 u y) (grid_shift nx xm s2 u x)) <=
       IZR (ny * nx) * d + (pixel_sum ny nx (fun k l => Rabs (g2 c k l)) + IZR (ny * nx) * d) * ((1 + eps) ^ 5 - 1)) /\
    shape xv = [s1; s2] /\ shape yv = [s1; s2] /\
    (forall y x, (0 <= y < s1)%Z -> (0 <= x < s2)%Z -> g2 xv y x = - grid_shift nx xm s2 u x /\ g2 yv y x = - grid_shift ny ym s1 u y) /\
    chi2_shift_tail_rd B S e [ny; nx] (Chi2All c' t1 t2 t3) us nf re rc mas mns =
      (let! errs := chi2map_to_errors_rd S e ups u 1 2 in
       let '(exl, exh, eyl, eyh) := errs in
       Ok ([RNum (grid_shift nx xm s2 u j); RNum (grid_shift ny ym s1 u i)] ++
          (if re then [RNum ((exl + exh) / 2); RNum ((eyl + eyh) / 2)] else []) ++ (if rc then [RMaps xv yv ups] else []))).
Proof.
  intros Hy Hx Sc Sc' Hd0 Hd HB W Hu H1 H2 HTy HTx. assert (e0 := proj1 HB).
  assert (Sa := argmin2_spec ny nx (g2 c') Hy Hx). unfold chi2_shift_tail_rd.
  destruct (argmin2 ny nx (g2 c')) as [ym xm] eqn:Ea.
  assert (Hwin : (match us with
      | UAuto => let! u := auto_factor mas (auto_size_rd S e ny nx (g2 c') mns nf) in
                 Ok (u, [mas; mas])
      | u => explicit_window u ny nx
      end) = Ok (u, [s1; s2])) by (destruct us; exact W).
  rewrite Hwin. cbn [bind].
  destruct (zoom2_ok (e_fftw e) (RtoCa c') ny nx (zcen ny ym) (zcen nx xm) u (Some [s1; s2]) s1 s2 1 false true true)
    as [xs [r [Z1 [Z2 [Z3 Z4]]]]]; auto; try lra.
  assert (HS : shape (RtoCa c') = [ny; nx]) by exact Sc'.
  assert (NODE : forall n m s i, (0 <= m < n)%Z -> (0 <= i < s)%Z -> phase_room T n s u -> PI * Rabs (grid_at (zcen n m) u s i) <= T).
  { intros n m s i Hm Hi HR. refine (Rle_trans _ _ _ _ HR). apply Rmult_le_compat_l; [left; apply PI_RGT_0|]. unfold grid_at. rewrite zcen_val.
    refine (Rle_trans _ _ _ (Rabs_triang _ _) _). apply Rplus_le_compat.
    - assert (M1 : IZR m <= IZR n - 1) by (rewrite <- minus_IZR; apply IZR_le; lia). assert (M0 : 0 <= IZR m) by (apply IZR_le; lia). apply Rabs_le. destruct (Z.even n); lra.
    - unfold Rdiv at 1. rewrite Rabs_mult, (Rabs_right (/ u)) by (left; apply Rinv_0_lt_compat; auto).
      replace (IZR s / (2 * u)) with (IZR s / 2 * / u) by (field; lra). apply Rmult_le_compat_r; [left; apply Rinv_0_lt_compat; auto|].
      assert (I1 : IZR i <= IZR s - 1) by (rewrite <- minus_IZR; apply IZR_le; lia). assert (I0 : 0 <= IZR i) by (apply IZR_le; lia). apply Rabs_le. lra. }
  assert (PW : forall i, inb (shape xs) i -> PI * Rabs (get xs i) <= T).
  { rewrite Z2. destruct Sa as [Sa1 [Sa2 _]]. cbn [fst snd] in *. intros i Hi. destruct i as [|ax [|i [|j [|]]]]; try (cbn in Hi; tauto). destruct Hi as [Hd' [Hi [Hj _]]].
    destruct (Z4 i j Hi Hj) as [G0 [G1 _]]. assert (ax = 0 \/ ax = 1)%Z as [-> | ->] by lia; [rewrite G0|rewrite G1]; apply NODE; auto. }
  assert (HB' : accurate_zoom eps T (shape (RtoCa c')) B) by (rewrite HS; exact HB).
  destruct (C111_zoom B eps T (e_fftw e) (RtoCa c') 1 false true true HB') as [ZP _].
  unfold with_xouts, pick_real in Z1. destruct (ZP _ _ _ _ _ (ltac:(rewrite Z1; exact PW)) Z1) as [r' [Z5 Z6]].
  destruct r' as [ups|]; [|cbn in Z6; contradiction]. destruct Z6 as [U1 U2]. cbn [shape amap] in U1. rewrite Z3 in U1. rewrite U1 in U2.
  assert (Hz : zoomnd_with B (RtoCa c') [IZR ym - cen ny; IZR xm - cen nx] (fun x => x) u (Some [s1; s2]) true true = Ok (Some xs, RealArr ups)).
  { unfold zoomnd_with. unfold ndim. rewrite HS. cbn [length Nat.ltb Nat.leb Nat.eqb negb andb zipw].
    rewrite <- Z5. unfold zcen. rewrite !minus_IZR. reflexivity. }
  rewrite Hz. cbn [bind].
  destruct (Z.leb_spec s1 0); [lia|]. destruct (Z.leb_spec s2 0); [lia|]. cbn [orb].
  assert (Sb := argmin2_spec s1 s2 (g2 ups) H1 H2). destruct (argmin2 s1 s2 (g2 ups)) as [i j] eqn:Ei. assert (Sb' := Sb). destruct Sb as [B1 [B2 [B3 _]]]. cbn [fst snd] in *.
  destruct (Z4 i j B1 B2) as [G0 [G1 _]].
  exists ym, xm, i, j, ups, (mk2 s1 s2 (fun i j => get xs [1%Z; i; j] - cen nx)), (mk2 s1 s2 (fun i j => get xs [0%Z; i; j] - cen ny)).
  split; [exact Sa|]. split; [exact U1|]. split; [exact Sb'|]. split.
  2:{ split; [reflexivity|]. split; [reflexivity|]. split.
      { intros y x Hyy Hxx. destruct (Z4 y x Hyy Hxx) as [Q0 [Q1 _]]. rewrite <- !node_grid. unfold node, g2. cbn [mk2 get]. rewrite Q0, Q1. split; ring. }
      destruct (chi2map_to_errors_rd S e ups u 1 2) as [[[[exl exh] eyl] eyh]|x]; cbn [bind]; [|reflexivity]. rewrite G0, G1.
      rewrite <- !node_grid. unfold node. f_equal. cbn [app]. f_equal; [f_equal; ring|]. f_equal. f_equal. ring. }
  set (D := IZR (ny * nx) * d + _).
  assert (PZ : prodZ [ny; nx] = (ny * nx)%Z) by (cbn; lia).
  assert (PN : 0 < IZR (ny * nx)) by (apply IZR_lt; nia).
  intros y x Hyy Hxx.
  assert (EM : forall cc, chi2_at ny nx cc (grid_shift ny ym s1 u y) (grid_shift nx xm s2 u x) = trig_interpR [ny; nx] (get cc) [grid_at (zcen ny ym) u s1 y; grid_at (zcen nx xm) u s2 x]).
  { intros cc. unfold chi2_at. rewrite <- !node_grid. unfold node. rewrite !cen_int. f_equal. f_equal; [|f_equal]; ring. }
  rewrite EM. set (P := [grid_at (zcen ny ym) u s1 y; grid_at (zcen nx xm) u s2 x]).
  assert (T1 : Rabs (trig_interpR [ny; nx] (get c') P - trig_interpR [ny; nx] (get c) P) <= IZR (ny * nx) * d).
  { rewrite <- PZ. apply tiR_near; [apply pos2; auto|]. intros q Hq. apply inb2' in Hq. destruct Hq as [k [l [-> [Hk Hl]]]]. apply Hd; auto. }
  assert (T2 : Rabs (g2 ups y x - trig_interpR [ny; nx] (get c') P) <= mod_sum (RtoCa c') * ((1 + eps) ^ 5 - 1)).
  { specialize (U2 [y; x] ltac:(cbn; lia)). unfold ndim in U2. rewrite HS in U2. cbn [length Nat.mul Nat.add] in U2. unfold g2.
    destruct (Z4 y x Hyy Hxx) as [_ [_ Z7]]. unfold g2 in Z7. cbn [amap get] in U2. rewrite Z7 in U2.
    unfold P. rewrite <- interpN_realpart by auto using pos2. exact U2. }
  assert (T3 : mod_sum (RtoCa c') <= pixel_sum ny nx (fun k l => Rabs (g2 c k l)) + IZR (ny * nx) * d).
  { unfold mod_sum. rewrite HS, sum2_sumNR. replace (IZR (ny * nx) * d) with (pixel_sum ny nx (fun _ _ => d)) by (change (pixel_sum ny nx) with (sum2 ny nx); rewrite sum2_const by lia; reflexivity).
    change (pixel_sum ny nx) with (sum2 ny nx). rewrite <- sum2_plus. apply sum2_le. intros k l Hk Hl. cbn [RtoCa amap get]. rewrite Cmod_R.
    specialize (Hd k l Hk Hl). unfold g2 in *. assert (Q := Rabs_triang (get c' [k; l] - get c [k; l]) (get c [k; l])).
    replace (get c' [k; l] - get c [k; l] + get c [k; l]) with (get c' [k; l]) in Q by ring. lra. }
  assert (P5 := pow_ge1 eps 5 e0).
  assert (T4 := Rmult_le_compat_r ((1 + eps) ^ 5 - 1) _ _ ltac:(lra) T3).
  assert (Q := Rabs_triang (g2 ups y x - trig_interpR [ny; nx] (get c') P) (trig_interpR [ny; nx] (get c') P - trig_interpR [ny; nx] (get c) P)).
  replace (g2 ups y x - trig_interpR [ny; nx] (get c') P + (trig_interpR [ny; nx] (get c') P - trig_interpR [ny; nx] (get c) P)) with (g2 ups y x - trig_interpR [ny; nx] (get c) P) in Q by ring.
  unfold D. lra.
Qed.

Lemma region_size_unique P s s' : is_region_size P s -> is_region_size P s' -> s = s'.
Proof.
  intros [[A ->]|[A1 [A2 [y [x [y' [x' [A3 [A4 A5]]]]]]]]] [[B ->]|[B1 [B2 [v [w [v' [w' [B3 [B4 B5]]]]]]]]].
  - reflexivity.
  - destruct (A v w v' w' B3 B4). lia.
  - destruct (B y x y' x' A3 A4). lia.
  - destruct (A2 v w v' w' B3 B4). destruct (B2 y x y' x' A3 A4). lia.
Qed.
Lemma final_grid_unique e us ny nx (c : arr R) ym xm mas mns nf u s1 s2 u' s1' s2' :
  final_grid e us ny nx c ym xm mas mns nf u s1 s2 -> final_grid e us ny nx c ym xm mas mns nf u' s1' s2' -> u' = u /\ s1' = s1 /\ s2' = s2.
Proof.
  intros F F0. destruct us as [|k|r]; cbn [final_grid] in F, F0.
  - destruct F as [-> [-> [z [Z1 [-> Z3]]]]]. destruct F0 as [-> [-> [z0 [Y1 [-> Y3]]]]]. rewrite (region_size_unique _ _ _ Z3 Y3). auto.
  - destruct F as [-> [_ Q]]. destruct F0 as [-> [_ Q0]]. destruct (k <? ny)%Z; intuition congruence.
  - destruct F as [-> [_ Q]]. destruct F0 as [-> [_ Q0]]. intuition congruence.
Qed.

Theorem C115_same_answer :
  forall A S B eps T e im1 im2 err us nthreads use_np zeromean nfitted (ret_err ret_arr : bool) mas mns allow_huge ny nx u s1 s2 t map0 t1 t2 t3 ym xm i j,
  shape im1 = [ny; nx] -> shape im2 = [ny; nx] -> (0 < ny)%Z -> (0 < nx)%Z -> err_ok err ny nx -> size_ok e allow_huge ny nx ->
  grid_given us ny nx mas -> final_grid e us ny nx map0 ym xm mas mns nfitted u s1 s2 -> phase_room T ny s1 u -> phase_room T nx s2 u -> one_sigma e t ->
  accurate eps [ny; nx] A -> accurate_scalar eps (Z.to_nat (ny * nx)) S -> accurate_zoom eps T [ny; nx] B -> eps <= 1 / 2 ->
  chi2n_map e im1 im2 err BWrap nthreads zeromean use_np true false allow_huge = Ok (Chi2All map0 t1 t2 t3) ->
  (0 <= ym < ny)%Z -> (0 <= xm < nx)%Z -> (0 <= i < s1)%Z -> (0 <= j < s2)%Z ->
  let d := chi2_error eps zeromean err im1 im2 ny nx in let D := node_error eps zeromean err im1 im2 ny nx map0 in
  let chi2_node := fun a b => chi2_at ny nx map0 (grid_shift ny ym s1 u a) (grid_shift nx xm s2 u b) in
  (* the minima are clear of the rounding errors *)
  (forall k l, (0 <= k < ny)%Z -> (0 <= l < nx)%Z -> (k, l) <> (ym, xm) -> g2 map0 ym xm + 2 * d < g2 map0 k l) ->
  (forall a b, (0 <= a < s1)%Z -> (0 <= b < s2)%Z -> (a, b) <> (i, j) -> chi2_node i j + 2 * D < chi2_node a b) ->
  (* no pixel is at the level of the automatic factor *)
  (us = UAuto -> forall k l, (0 <= k < ny)%Z -> (0 <= l < nx)%Z ->
     match auto_level e mns nfitted with Fin lv => clear_of eps d lv (g2 map0 k l - g2 map0 ym xm) | NaN => True end) ->
  exists ex ey ex' ey' xs xs' ys ys' ups ups',
    chi2_shift_all_rd A S B e im1 im2 err us BWrap zeromean nfitted ret_err ret_arr mas mns allow_huge =
      Ok ([RNum (grid_shift nx xm s2 u j); RNum (grid_shift ny ym s1 u i)] ++ (if ret_err then [RNum ex; RNum ey] else []) ++ (if ret_arr then [RMaps xs ys ups] else [])) /\
    chi2_shift e im1 im2 err us BWrap nthreads use_np zeromean nfitted false ret_err ret_arr mas mns allow_huge =
      Ok ([RNum (grid_shift nx xm s2 u j); RNum (grid_shift ny ym s1 u i)] ++ (if ret_err then [RNum ex'; RNum ey'] else []) ++ (if ret_arr then [RMaps xs' ys' ups'] else [])) /\
    (* the same coordinates, and nearly the same chi2, in the returned maps *)
    shape xs = [s1; s2] /\ shape xs' = [s1; s2] /\ shape ys = [s1; s2] /\ shape ys' = [s1; s2] /\ shape ups = [s1; s2] /\ shape ups' = [s1; s2] /\
    (forall a b, (0 <= a < s1)%Z -> (0 <= b < s2)%Z -> g2 xs a b = g2 xs' a b /\ g2 ys a b = g2 ys' a b /\ g2 ups' a b = chi2_node a b /\ Rabs (g2 ups a b - chi2_node a b) <= D) /\
    (* no node is at the 1-sigma level: the same error bars *)
    ((forall a b, (0 <= a < s1)%Z -> (0 <= b < s2)%Z -> clear_of eps D t (chi2_node a b - chi2_node i j)) -> ex = ex' /\ ey = ey').
Proof.
  intros A S B eps T e im1 im2 err us nt np zm nf re rc mas mns huge ny nx u s1 s2 t c t1 t2 t3 ym xm i j H1 H2 Hy Hx He Hh Hg FG HTy HTx Ht HA HS HB Heps Em Hym Hxm Hi Hj d D node G1 G2 GA.
  destruct (map_rd_near A S eps e im1 im2 err zm true false huge ny nx H1 H2 Hy Hx He Hh ltac:(discriminate) HA HS Heps) as [c' [t1' [t2' [t3' [E' [Sc' V']]]]]].
  destruct (chi2n_map_ok e im1 im2 err nt zm np true false huge ny nx H1 H2 Hy Hx He Hh ltac:(discriminate)) as [c1 [a1 [a2 [a3 [E [Sc [_ [_ V]]]]]]]].
  rewrite Em in E. injection E as <- <- <- <-.
  assert (Dd : forall k l, (0 <= k < ny)%Z -> (0 <= l < nx)%Z -> Rabs (g2 c' k l - g2 c k l) <= d).
  { intros k l Hk Hl. destruct (V k l Hk Hl) as [_ [_ ->]]. apply (V' k l Hk Hl). }
  assert (D0 : 0 <= d) by (refine (Rle_trans _ _ _ (Rabs_pos _) (Dd 0%Z 0%Z ltac:(lia) ltac:(lia)))).
  assert (D1 : 0 <= D).
  { unfold D, node_error. assert (e0 := proj1 HA). assert (P5 := pow_ge1 eps 5 e0). fold d.
    assert (PN : 0 <= IZR (ny * nx)) by (apply IZR_le; nia). assert (Q := Rmult_le_pos _ _ PN D0).
    assert (Q2 : 0 <= pixel_sum ny nx (fun k l => Rabs (g2 c k l))) by (apply sumR_nonneg; intros; apply sumR_nonneg; intros; apply Rabs_pos).
    assert (Q3 : 0 <= (pixel_sum ny nx (fun k l => Rabs (g2 c k l)) + IZR (ny * nx) * d) * ((1 + eps) ^ 5 - 1)) by (apply Rmult_le_pos; lra). cbv zeta. lra. }
  assert (ND2 : forall p q : Z * Z, {p = q} + {p <> q}) by (decide equality; apply Z.eq_dec).
  (* the exact call *)
  destruct (C43_full_result e im1 im2 err us nt np zm nf re rc mas mns huge ny nx t H1 H2 Hy Hx He Hh Hg Ht)
    as [c1 [a1 [a2 [a3 [ym0 [xm0 [u0 [r1 [r2 [xv [yv [ups [i0 [j0 [xlo [xhi [ylo [yhi [F1 [F2 [F3 [F4 [F5 [F6 [F7 [F8 [F9 F10]]]]]]]]]]]]]]]]]]]]]]]]]]].
  rewrite Em in F1. injection F1 as <- <- <- <-.
  assert (E1 : (ym0, xm0) = (ym, xm)).
  { destruct (ND2 (ym0, xm0) (ym, xm)) as [Q|Q]; [exact Q|exfalso]. destruct F2 as [A1 [A2 [A3 _]]]. cbn [fst snd] in *. specialize (G1 ym0 xm0 A1 A2 Q). specialize (A3 ym xm Hym Hxm). lra. }
  injection E1 as -> ->.
  destruct (final_window e us ny nx c ym xm mas mns nf Hy Hx Hg F2) as [u1 [q1 [q2 [WI [FG1 [U0 [P1 P2]]]]]]].
  destruct (final_grid_unique _ _ _ _ _ _ _ _ _ _ _ _ _ _ _ _ FG FG1) as [-> [-> ->]].
  destruct (final_grid_unique _ _ _ _ _ _ _ _ _ _ _ _ _ _ _ _ FG F3) as [-> [-> ->]]. clear FG1 F3.
  assert (E2 : (i0, j0) = (i, j)).
  { destruct (ND2 (i0, j0) (i, j)) as [Q|Q]; [exact Q|exfalso]. destruct F8 as [A1 [A2 [A3 _]]]. cbn [fst snd] in *. specialize (G2 i0 j0 A1 A2 Q). specialize (A3 i j Hi Hj).
    destruct (F7 i0 j0 A1 A2) as [_ [_ W1]]. destruct (F7 i j Hi Hj) as [_ [_ W2]]. rewrite W1, W2 in A3. unfold node in G2. lra. }
  injection E2 as -> ->.
  assert (Mn : min2 ny nx (g2 c) = g2 c ym xm).
  { unfold min2. rewrite (is_argmin2_unique ny nx (g2 c) _ (ym, xm) (argmin2_spec ny nx (g2 c) Hy Hx) F2). reflexivity. }
  assert (WR : window_rd S e us ny nx (g2 c') mas mns nf = Ok (u, [s1; s2])).
  { rewrite (window_same S eps (Z.to_nat (ny * nx)) e us ny nx (g2 c) (g2 c') mas mns nf d HS Heps D0 Hy Hx Dd); [exact WI|].
    rewrite Mn. exact GA. }
  destruct (tail_all_near B S eps T e us nf re rc mas mns ny nx c c' t1' t2' t3' u s1 s2 d Hy Hx Sc Sc' D0 Dd HB WR U0 P1 P2 HTy HTx)
    as [ym0 [xm0 [i0 [j0 [ups' [xv' [yv' [K1 [K2 [K3 [K4 [KX [KY [KV K5]]]]]]]]]]]]]].
  assert (E1 : (ym0, xm0) = (ym, xm)).
  { destruct (ND2 (ym0, xm0) (ym, xm)) as [Q|Q]; [exact Q|exfalso]. destruct K1 as [A1 [A2 [A3 _]]]. cbn [fst snd] in *. specialize (G1 ym0 xm0 A1 A2 Q). specialize (A3 ym xm Hym Hxm).
    assert (N1 := Dd ym0 xm0 A1 A2). assert (N2 := Dd ym xm Hym Hxm). apply Rcomplements.Rabs_le_between in N1. apply Rcomplements.Rabs_le_between in N2. lra. }
  injection E1 as -> ->.
  assert (K4' : forall y x, (0 <= y < s1)%Z -> (0 <= x < s2)%Z -> Rabs (g2 ups' y x - node y x) <= D) by exact K4.
  assert (E2 : (i0, j0) = (i, j)).
  { destruct (ND2 (i0, j0) (i, j)) as [Q|Q]; [exact Q|exfalso]. destruct K3 as [A1 [A2 [A3 _]]]. cbn [fst snd] in *. specialize (G2 i0 j0 A1 A2 Q). specialize (A3 i j Hi Hj).
    assert (N1 := K4' i0 j0 A1 A2). assert (N2 := K4' i j Hi Hj). apply Rcomplements.Rabs_le_between in N1. apply Rcomplements.Rabs_le_between in N2. lra. }
  injection E2 as -> ->.
  apply one_sigma_thr in Ht. destruct Ht as [Ht Ht0].
  destruct (errors_rd_ok S eps _ e ups' u s1 s2 t HS K2 P1 P2 U0 Ht Ht0) as [b1 [b2 [b3 [b4 Er]]]].
  exists ((b1 + b2) / 2), ((b3 + b4) / 2), ((xlo + xhi) / 2), ((ylo + yhi) / 2), xv', xv, yv', yv, ups', ups.
  split; [unfold chi2_shift_all_rd; rewrite E'; cbn [bind]; rewrite H1, K5, Er; reflexivity|]. split; [exact F10|].
  split; [exact KX|]. split; [exact F4|]. split; [exact KY|]. split; [exact F5|]. split; [exact K2|]. split; [exact F6|].
  split.
  { intros a b Ha Hb. destruct (KV a b Ha Hb) as [-> ->]. destruct (F7 a b Ha Hb) as [-> [-> ->]]. split; [reflexivity|]. split; [reflexivity|]. split; [reflexivity|exact (K4' a b Ha Hb)]. }
  intros GC.
  assert (Au : argmin2 s1 s2 (g2 ups) = (i, j)) by (apply (is_argmin2_unique s1 s2 (g2 ups)); [apply argmin2_spec; auto|exact F8]).
  assert (Au' : argmin2 s1 s2 (g2 ups') = (i, j)) by (apply (is_argmin2_unique s1 s2 (g2 ups')); [apply argmin2_spec; auto|exact K3]).
  rewrite (errors_rd_same S e ups' ups u s1 s2 t K2 F6) in Er; [|congruence|exact Ht|].
  - rewrite F9 in Er. injection Er as <- <- <- <-. auto.
  - apply (area_same S eps (Z.to_nat (ny * nx)) s1 s2 (g2 ups) (g2 ups') D t HS Heps D1 P1 P2).
    + intros k l Hk Hl. destruct (F7 k l Hk Hl) as [_ [_ W]]. rewrite W. apply (K4' k l Hk Hl).
    + intros k l Hk Hl. unfold min2. rewrite Au. cbn [fst snd]. destruct (F7 k l Hk Hl) as [_ [_ W]]. destruct (F7 i j Hi Hj) as [_ [_ W2]]. rewrite W, W2. apply (GC k l Hk Hl).
Qed.
Print Assumptions C115_same_answer.
