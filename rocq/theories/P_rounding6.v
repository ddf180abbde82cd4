(** C122: chi2_shift with every operation rounded, positions and error bars included *)
From Coq Require Import ZArith Lia List Reals Lra Bool FunctionalExtensionality.
From Coquelicot Require Import Complex.
From Verif Require Import Base NDim DFT Kernel Num Py Sum2 M_fast_ffts M_shift M_scale M_zoom M_upsample M_convolve M_correlate Arg M_chi2 M_xcorr M_register M_rounding M_rounding2 M_rounding3 M_rounding4 M_rounding6
  Spec L_shift L_scale L_upsample L_convolve Spec2 Spec3 Spec4 L_correlate L_chi2 L_zoom L_register L_register2 L_register3
  L_chi2shift L_fshift L_xcorr P_xcorr P_xcorr2 P_xcorr3 P_chi2map P_chi2errors P_chi2shift P_chi2shift2 P_register P_noise P_rounding P_rounding2 L_iterzoom2 L_rounding3 P_rounding3 P_rounding4 L_rounding6.
Import ListNotations.
Open Scope R_scope.

(** error of a computed offset along an axis of n pixels with s nodes of spacing 1/u, mu the error of one operation *)
Definition position_error (mu : R) (n s : Z) (u : R) : R := (7 * IZR n + 4 + 2 * IZR s / u) * ((1 + mu) ^ 12 - 1).
(** error of a computed error bar *)
Definition bar_error (mu : R) (s : Z) (u : R) : R := 3 * IZR s / u * ((1 + mu) ^ 10 - 1).
(** the comparison of the height with an explicit factor survives the rounding of the quotient *)
Definition factor_clear (mu : R) (us : usarg) (ny : Z) : Prop :=
  match us with
  | UAuto => True
  | UInt k => k = ny \/ IZR k * (1 + 2 * mu) <= IZR ny \/ IZR ny * (1 + mu) <= IZR k
  | UFloat r => r * (1 + 2 * mu) <= IZR ny
  end.

Definition window_fp (S : sarith) (e : env) (us : usarg) (ny nx : Z) (chi2 : Z -> Z -> R) (mas : Z) (max_nsig nfitted : R) : res (R * list Z) :=
  match us with
  | UAuto => let! u := auto_factor_fp S mas (auto_size_rd S e ny nx chi2 max_nsig nfitted) in Ok (u, [mas; mas])
  | u => explicit_window_fp S u ny nx
  end.
Lemma rd_above mu S x : rounds mu S -> mu <= 1 / 4 -> 1 + 2 * mu <= x -> ~ (mu = 0 /\ x = 1) -> 1 < sa_rd S x.
Proof.
  intros [H0 H] He Hx N. specialize (H x). rewrite (Rabs_right x) in H by lra. apply Rcomplements.Rabs_le_between in H.
  assert (Q : (1 - mu) * (1 + 2 * mu) <= (1 - mu) * x) by (apply Rmult_le_compat_l; lra).
  replace ((1 - mu) * (1 + 2 * mu)) with (1 + mu * (1 - 2 * mu)) in Q by ring.
  destruct (Req_dec mu 0) as [->|D].
  - assert (x <> 1) by tauto. lra.
  - assert (0 < mu * (1 - 2 * mu)) by (apply Rmult_lt_0_compat; lra). lra.
Qed.
Lemma rd_below mu S x : rounds mu S -> 0 <= x -> x * (1 + mu) <= 1 -> sa_rd S x <= 1.
Proof. intros [H0 H] Hx Q. specialize (H x). rewrite (Rabs_right x) in H by lra. apply Rcomplements.Rabs_le_between in H. lra. Qed.
Lemma window_near S eps mu n e us ny nx (c c' : Z -> Z -> R) mas mns nf d u s1 s2 : accurate_scalar eps n S -> eps <= 1 / 2 -> rounds mu S -> mu <= 1 / 4 -> sa_rd S 1 = 1 ->
  0 <= d -> (0 < ny)%Z -> (0 < nx)%Z -> grid_given us ny nx mas -> factor_clear mu us ny ->
  (forall k l, (0 <= k < ny)%Z -> (0 <= l < nx)%Z -> Rabs (c' k l - c k l) <= d) ->
  (us = UAuto -> forall k l, (0 <= k < ny)%Z -> (0 <= l < nx)%Z -> match auto_level e mns nf with Fin lv => clear_of eps d lv (c k l - min2 ny nx c) | NaN => True end) ->
  window e us ny nx c mas mns nf = Ok (u, [s1; s2]) -> 0 < u ->
  exists u', window_fp S e us ny nx c' mas mns nf = Ok (u', [s1; s2]) /\ near ((1 + mu) ^ 2) u u' u.
Proof.
  intros HS He HR Hm H1 Hd Hy Hx Hg Hf H K W U0. assert (Py := IZR_lt _ _ Hy). assert (m0 := proj1 HR). destruct us as [|k|r].
  - specialize (K eq_refl). cbn [grid_given] in Hg. unfold window, window_fp in *.
    assert (E : auto_size_rd S e ny nx c' mns nf = auto_size e ny nx c mns nf).
    { unfold auto_size_rd, auto_size. assert (E : area_rd S ny nx c' (m_auto e mns nf) = area ny nx c (m_auto e mns nf)); [|rewrite E; reflexivity].
      change (m_auto e mns nf) with (auto_level e mns nf). destruct (auto_level e mns nf) as [lv|].
      - apply (area_same S eps n ny nx c c' d lv HS He Hd Hy Hx H K).
      - unfold area_rd, area. apply filter_ext. reflexivity. }
    rewrite E. assert (Hsz := auto_size_spec e ny nx c mns nf). set (size := auto_size e ny nx c mns nf) in *.
    assert (Hs1 : (1 <= size)%Z) by (destruct Hsz as [[_ ->]|[G _]]; [lia|auto]).
    assert (Hsp : 1 <= IZR size) by (apply IZR_le; auto). assert (Hmp : 1 <= IZR mas) by (apply IZR_le; auto).
    unfold auto_factor, auto_factor_fp in *. rewrite pydiv_ok in W by lra. rewrite pydiv_ok by lra. cbn [bind] in *. injection W as <- <- <-.
    assert (N : near ((1 + mu) ^ 2) (IZR mas / 2 / IZR size) (sa_rd S (sa_rd S (IZR mas / 2) / IZR size)) (IZR mas / 2 / IZR size)).
    { apply (nearR mu S HR 1). assert (Q : near ((1 + mu) ^ 1) (IZR mas / 2) (sa_rd S (IZR mas / 2)) (IZR mas / 2)) by (apply (nearR mu S HR 0), (nearx mu S HR); rewrite Rabs_right; lra).
      apply (near_scal _ _ (/ IZR size)) in Q. rewrite (Rabs_right (/ IZR size)) in Q by (left; apply Rinv_0_lt_compat; lra). unfold Rdiv at 1 3 5. rewrite (Rmult_comm _ (/ IZR size)), (Rmult_comm (sa_rd S _) (/ IZR size)). exact Q. }
    set (q := IZR mas / 2 / IZR size) in *. set (q' := sa_rd S (sa_rd S _ / _)) in *. eexists. split; [reflexivity|]. destruct N as [N1 [N2 N3]].
    assert (q0 : 0 <= q) by (unfold q; apply Rmult_le_pos; [lra|left; apply Rinv_0_lt_compat; lra]).
    set (p := (1 + mu) ^ 2 - 1) in *. assert (0 <= p) by (unfold p; lra). apply Rcomplements.Rabs_le_between in N2. assert (0 <= q * p) by (apply Rmult_le_pos; auto).
    split; [exact N1|]. fold p. destruct (Rlt_dec q' 1); destruct (Rlt_dec q 1); split; try (rewrite Rabs_right; lra); apply Rabs_le; try lra.
    assert (q * p <= 1 * p) by (apply Rmult_le_compat_r; lra). lra.
  - exists u. split; [|apply near_refl; [apply (P1 mu S HR)|rewrite Rabs_right; lra]]. unfold window, window_fp, explicit_window, explicit_window_fp in *. destruct (pydiv (IZR ny) (IZR k)) as [zf|] eqn:Ez; [|discriminate]. cbn [bind] in *.
    rewrite <- W. injection W as Wu _. subst u. unfold pydiv in Ez. destruct (Req_EM_T (IZR k) 0); [discriminate|]. injection Ez as <-. do 2 f_equal. cbn [factor_clear] in Hf.
    assert (D : (Rle_dec (IZR ny / IZR k) 1 : {_} + {_}) = Rle_dec (IZR ny / IZR k) 1) by reflexivity.
    destruct Hf as [->|[Hf|Hf]].
    + replace (IZR ny / IZR ny) with 1 by (field; lra). rewrite H1. destruct (Rle_dec 1 1); reflexivity.
    + assert (X : 1 + 2 * mu <= IZR ny / IZR k) by (apply (Rmult_le_reg_r (IZR k)); auto; unfold Rdiv; rewrite Rmult_assoc, Rinv_l; lra).
      destruct (Req_dec mu 0) as [M0|M0].
      * assert (R0 : sa_rd S (IZR ny / IZR k) = IZR ny / IZR k).
        { assert (Q := proj2 HR (IZR ny / IZR k)). rewrite M0, Rmult_0_l in Q. apply Rcomplements.Rabs_le_between in Q. lra. }
        rewrite R0. reflexivity.
      * assert (Y := rd_above mu S _ HR Hm X ltac:(tauto)). destruct (Rle_dec (sa_rd S _) 1); [lra|]. destruct (Rle_dec (IZR ny / IZR k) 1); [lra|reflexivity].
    + assert (X : IZR ny / IZR k * (1 + mu) <= 1) by (apply (Rmult_le_reg_r (IZR k)); auto; unfold Rdiv; replace (IZR ny * / IZR k * (1 + mu) * IZR k) with (IZR ny * (1 + mu)) by (field; lra); lra).
      assert (X0 : 0 <= IZR ny / IZR k) by (apply Rmult_le_pos; [lra|left; apply Rinv_0_lt_compat; auto]).
      assert (Y := rd_below mu S _ HR X0 X). assert (IZR ny / IZR k <= 1) by (assert (0 <= IZR ny / IZR k * mu) by (apply Rmult_le_pos; auto); lra).
      destruct (Rle_dec (sa_rd S _) 1); [|lra]. destruct (Rle_dec (IZR ny / IZR k) 1); [reflexivity|lra].
  - exists u. split; [|apply near_refl; [apply (P1 mu S HR)|rewrite Rabs_right; lra]]. unfold window, window_fp, explicit_window, explicit_window_fp in *. destruct (pydiv (IZR ny) r) as [zf|] eqn:Ez; [|discriminate]. cbn [bind] in *.
    destruct (Rle_dec zf 1) as [|Z1]; [discriminate|]. rewrite <- W. injection W as Wu _ _. subst u. unfold pydiv in Ez. destruct (Req_EM_T r 0); [discriminate|]. injection Ez as <-. cbn [factor_clear] in Hf.
    assert (X : 1 + 2 * mu <= IZR ny / r) by (apply (Rmult_le_reg_r r); auto; unfold Rdiv; rewrite Rmult_assoc, Rinv_l; lra).
    assert (Y := rd_above mu S _ HR Hm X ltac:(lra)). destruct (Rle_dec (sa_rd S _) 1); [lra|reflexivity].
Qed.

(** the error bars *)
Lemma errors_fp_ok S eps n e ups u s1 s2 t : accurate_scalar eps n S -> shape ups = [s1; s2] -> (0 < s1)%Z -> (0 < s2)%Z -> 0 < u -> sigma_to_chi2 e 1 2 = Ok (Fin t) -> 0 < t ->
  exists a b c d, chi2map_to_errors_fp S e ups u 1 2 = Ok (a, b, c, d).
Proof.
  intros HS Hu H1 H2 U0 Ht T0. unfold chi2map_to_errors_fp. rewrite Hu. destruct (Req_EM_T u 0); [lra|]. destruct (Z.leb_spec s1 0); [lia|]. destruct (Z.leb_spec s2 0); [lia|]. cbn [orb].
  rewrite Ht. cbn [bind]. assert (N := area_rd_min S eps n s1 s2 (g2 ups) t HS H1 H2 T0). set (sel := area_rd S s1 s2 (g2 ups) (Fin t)) in *. clearbody sel.
  set (xx := fun p : Z * Z => sa_rd S (sa_rd S (IZR (snd p) - sa_rd S (IZR s2 / 2)) / u)). set (yy := fun p : Z * Z => sa_rd S (sa_rd S (IZR (fst p) - sa_rd S (IZR s1 / 2)) / u)).
  destruct (lmin_map xx sel N) as [a [_ [-> _]]]. destruct (lmax_map xx sel N) as [b [_ [-> _]]]. destruct (lmin_map yy sel N) as [c [_ [-> _]]]. destruct (lmax_map yy sel N) as [d [_ [-> _]]].
  cbn [bind]. repeat eexists.
Qed.
Lemma errors_fp_near S mu e (ups' ups : arr R) u' u s1 s2 t a b c d : rounds mu S -> mu <= 1 / 4 -> 0 < u -> near ((1 + mu) ^ 2) u u' u -> (0 < s1)%Z -> (0 < s2)%Z ->
  shape ups' = [s1; s2] -> shape ups = [s1; s2] -> argmin2 s1 s2 (g2 ups') = argmin2 s1 s2 (g2 ups) ->
  sigma_to_chi2 e 1 2 = Ok (Fin t) -> area_rd S s1 s2 (g2 ups') (Fin t) = area s1 s2 (g2 ups) (Fin t) -> area s1 s2 (g2 ups) (Fin t) <> [] ->
  chi2map_to_errors e ups u 1 2 = Ok (a, b, c, d) ->
  exists a' b' c' d', chi2map_to_errors_fp S e ups' u' 1 2 = Ok (a', b', c', d') /\
    Rabs (sa_rd S (sa_rd S (a' + b') / 2) - (a + b) / 2) <= bar_error mu s2 u /\ Rabs (sa_rd S (sa_rd S (c' + d') / 2) - (c + d) / 2) <= bar_error mu s1 u.
Proof.
  intros HR Hm U0 Hn P1' P2' H1 H2 H3 H4 H5 NE E. destruct (near_inv mu S HR u' u Hm U0 Hn) as [U' _].
  unfold chi2map_to_errors_fp, chi2map_to_errors in *. rewrite H1, H3, H4. rewrite H2, H4 in E. destruct (Req_EM_T u 0); [lra|]. destruct (Req_EM_T u' 0); [lra|].
  destruct (Z.leb_spec s1 0); [lia|]. destruct (Z.leb_spec s2 0); [lia|]. cbn [orb bind] in *. rewrite H5.
  set (sel := area s1 s2 (g2 ups) (Fin t)) in *.
  assert (SIN : forall p, In p sel -> (0 <= fst p < s1)%Z /\ (0 <= snd p < s2)%Z).
  { intros [y x] Hp. unfold sel, area in Hp. apply filter_In in Hp. destruct Hp as [Hp _]. apply pixels_In in Hp. exact Hp. }
  clearbody sel.
  assert (PIN : (0 <= fst (argmin2 s1 s2 (g2 ups)) < s1)%Z /\ (0 <= snd (argmin2 s1 s2 (g2 ups)) < s2)%Z).
  { destruct (argmin2_spec s1 s2 (g2 ups) P1' P2') as [A1 [A2 _]]. auto. }
  set (p := argmin2 s1 s2 (g2 ups)) in *. clearbody p.
  assert (C : forall s j, (0 < s)%Z -> (0 <= j < s)%Z -> near ((1 + mu) ^ 7) (3 / 2 * IZR s / u) (sa_rd S (sa_rd S (IZR j - sa_rd S (IZR s / 2)) / u')) ((IZR j - IZR s / 2) / u)).
  { intros s j Hs Hj. assert (IZR 0 < IZR s) by (apply IZR_lt; auto). assert (0 <= IZR j <= IZR s) by (split; apply IZR_le; lia).
    apply (near_quot mu S HR 2 (3 / 2 * IZR s)); auto. apply (nearR mu S HR 1). apply (near_eq ((1 + mu) ^ 1) _ (IZR s + IZR s / 2)); [|reflexivity|field].
    apply near_sub; [apply (nearx mu S HR); rewrite Rabs_right; lra|]. apply (nearR mu S HR 0), (nearx mu S HR). rewrite Rabs_right; lra. }
  set (xx' := fun q : Z * Z => sa_rd S (sa_rd S (IZR (snd q) - sa_rd S (IZR s2 / 2)) / u')). set (yy' := fun q : Z * Z => sa_rd S (sa_rd S (IZR (fst q) - sa_rd S (IZR s1 / 2)) / u')).
  set (xx := fun q : Z * Z => (IZR (snd q) - IZR s2 / 2) / u) in *. set (yy := fun q : Z * Z => (IZR (fst q) - IZR s1 / 2) / u) in *.
  destruct (lmin_near mu S HR xx' xx 7 (3 / 2 * IZR s2 / u) sel NE) as [xl' [xl [-> [EX1 NX1]]]]; [intros q Hq; apply C; auto; apply SIN; auto|].
  destruct (lmax_near mu S HR xx' xx 7 (3 / 2 * IZR s2 / u) sel NE) as [xh' [xh [-> [EX2 NX2]]]]; [intros q Hq; apply C; auto; apply SIN; auto|].
  destruct (lmin_near mu S HR yy' yy 7 (3 / 2 * IZR s1 / u) sel NE) as [yl' [yl [-> [EX3 NX3]]]]; [intros q Hq; apply C; auto; apply SIN; auto|].
  destruct (lmax_near mu S HR yy' yy 7 (3 / 2 * IZR s1 / u) sel NE) as [yh' [yh [-> [EX4 NX4]]]]; [intros q Hq; apply C; auto; apply SIN; auto|].
  rewrite EX1, EX2, EX3, EX4 in E. cbn [bind] in *. injection E as <- <- <- <-. repeat eexists.
  - assert (X := C s2 (snd p) P2' (proj2 PIN)). fold (xx p) in X. change (sa_rd S (sa_rd S (IZR (snd p) - sa_rd S (IZR s2 / 2)) / u')) with (xx' p) in X.
    assert (L := nearR mu S HR 7 _ _ _ (near_sub _ _ _ _ _ _ _ X NX1)). assert (Hh := nearR mu S HR 7 _ _ _ (near_sub _ _ _ _ _ _ _ NX2 X)).
    assert (Q := nearR mu S HR 9 _ _ _ (near_half _ _ _ _ (nearR mu S HR 8 _ _ _ (near_add _ _ _ _ _ _ _ L Hh)))). destruct Q as [_ [Q _]]. unfold bar_error.
    refine (Rle_trans _ _ _ Q _). right. field. lra.
  - assert (X := C s1 (fst p) P1' (proj1 PIN)). fold (yy p) in X. change (sa_rd S (sa_rd S (IZR (fst p) - sa_rd S (IZR s1 / 2)) / u')) with (yy' p) in X.
    assert (L := nearR mu S HR 7 _ _ _ (near_sub _ _ _ _ _ _ _ X NX3)). assert (Hh := nearR mu S HR 7 _ _ _ (near_sub _ _ _ _ _ _ _ NX4 X)).
    assert (Q := nearR mu S HR 9 _ _ _ (near_half _ _ _ _ (nearR mu S HR 8 _ _ _ (near_add _ _ _ _ _ _ _ L Hh)))). destruct Q as [_ [Q _]]. unfold bar_error.
    refine (Rle_trans _ _ _ Q _). right. field. lra.
Qed.

(** the zoom at rounded positions *)
Lemma zoom_fp_ok B S eps T (inp : arr C) ny nx cy cx u my mx : accurate_zoom eps T [ny; nx] B -> shape inp = [ny; nx] -> (0 < ny)%Z -> (0 < nx)%Z -> 0 < u -> (0 < my)%Z -> (0 < mx)%Z ->
  let pos := fun c s i => let h := sa_rd S (sa_rd S (IZR (s - 1) / u) / 2) in linspace_at_fp S (sa_rd S (c - h)) (sa_rd S (c + h)) s i in
  (forall i, (0 <= i < my)%Z -> PI * Rabs (pos cy my i) <= T) -> (forall j, (0 <= j < mx)%Z -> PI * Rabs (pos cx mx j) <= T) ->
  exists xs r, zoom_on_pixel_fp B S inp [cy; cx] u (Some [my; mx]) true true = Ok (Some xs, RealArr r) /\ shape r = [my; mx] /\
    forall i j, (0 <= i < my)%Z -> (0 <= j < mx)%Z -> get xs [0%Z; i; j] = pos cy my i /\ get xs [1%Z; i; j] = pos cx mx j /\
      Rabs (g2 r i j - Re (interpN [ny; nx] (get inp) [pos cy my i; pos cx mx j])) <= mod_sum inp * ((1 + eps) ^ 5 - 1).
Proof.
  intros HB Hs Hy Hx Hu Hmy Hmx pos HTy HTx. unfold zoom_on_pixel_fp. rewrite Hs. simpl.
  destruct (Z.ltb_spec my 0); [lia|]. destruct (Z.ltb_spec mx 0); [lia|]. simpl. rewrite pydiv_ok by lra. simpl.
  set (oa := Arr [2%Z; my; mx] _).
  assert (G0 : forall i j, get oa [0%Z; i; j] = pos cy my i) by reflexivity.
  assert (G1 : forall i j, get oa [1%Z; i; j] = pos cx mx j) by reflexivity.
  destruct (fourier_interp2d_ok false inp ny nx (IndArr oa) (mk1 my (fun i => get oa [0; i; 0]%Z)) (mk1 mx (fun j => get oa [1; 0; j]%Z)) my mx 1 false true) as [r [H1 [H2 H3]]]; auto.
  { unfold coords2, axis_coords. simpl shape. cbv iota. simpl Z.eqb. cbv iota.
    destruct (Z.leb_spec mx 0); [lia|]. destruct (Z.leb_spec my 0); [lia|]. split; reflexivity. }
  destruct (interp2_near B eps T false 1 false inp (IndArr oa) true (pick_real true r) ny nx Hs HB) as [r' [R1 R2]]; [|exact H1|].
  { intros d cc Hd. unfold axis_coords. cbn [oa shape]. destruct Hd as [-> | ->]; cbn [Z.eqb].
    - destruct (Z.leb_spec mx 0); [lia|]. intros Q. injection Q as <-. cbn [mk1 shape nth]. intros i Hi. apply (HTy i Hi).
    - destruct (Z.leb_spec my 0); [lia|]. intros Q. injection Q as <-. cbn [mk1 shape nth]. intros i Hi. apply (HTx i Hi). }
  unfold pick_real in R2. destruct r' as [ups|]; [|cbn in R2; contradiction]. destruct R2 as [U1 U2]. cbn [shape amap] in U1. rewrite H2 in U1. rewrite U1 in U2.
  exists oa, ups. split; [rewrite R1; reflexivity|]. split; [exact U1|]. intros i j Hi Hj. split; [reflexivity|]. split; [reflexivity|].
  specialize (U2 [i; j] ltac:(cbn; lia)). cbn [amap get] in U2. unfold g2. rewrite H3 in U2. exact U2.
Qed.

(** the phases of the zoom, at rounded positions too, lie in [-T, T] *)
Definition phase_room_fp (T mu : R) (n s : Z) (u : R) : Prop := PI * (IZR n + IZR s / (2 * u) + position_error mu n s u) <= T.
(** error of the interpolated chi2 at a node, given the error of the positions *)
Definition node_error_fp (eps mu : R) (zeromean : bool) (err : errarg) (im1 im2 : arr num) (ny nx : Z) (map0 : arr R) (u : R) (s1 s2 : Z) : R :=
  node_error eps zeromean err im1 im2 ny nx map0 + PI * pixel_sum ny nx (fun k l => Rabs (g2 map0 k l)) * (position_error mu ny s1 u + position_error mu nx s2 u).

Lemma position_fp S mu n m s u' u i : rounds mu S -> mu <= 1 / 4 -> 0 < u -> near ((1 + mu) ^ 2) u u' u -> (0 < n)%Z -> (0 <= m < n)%Z -> (0 <= i < s)%Z ->
  let c := sa_rd S (sa_rd S (IZR (n - 1) / 2) + sa_rd S (IZR m - cen_fp S n)) in
  let h := sa_rd S (sa_rd S (IZR (s - 1) / u') / 2) in
  let p := linspace_at_fp S (sa_rd S (c - h)) (sa_rd S (c + h)) s i in
  Rabs (p - grid_at (zcen n m) u s i) <= position_error mu n s u /\ Rabs (- sa_rd S (p - cen_fp S n) - grid_shift n m s u i) <= position_error mu n s u.
Proof.
  intros HR Hm U0 Hn H0 Hmm Hi c h p. assert (m0 := proj1 HR). assert (N := position_near mu S HR n m s u' u i c Hm U0 Hn H0 Hmm Hi eq_refl). cbv zeta in N. fold h p in N.
  assert (S0 : 0 < IZR s) by (apply IZR_lt; lia). assert (n0 : 0 < IZR n) by (apply IZR_lt; auto).
  assert (SU : 0 < IZR s / u) by (apply Rmult_lt_0_compat; [auto|apply Rinv_0_lt_compat; auto]). assert (E12 := P1 mu S HR 12). assert (E11 := P1 mu S HR 11). assert (E := Pmono mu S HR 11 12 ltac:(lia)).
  assert (W : forall k M x, M <= 7 * IZR n + 4 + 2 * IZR s / u -> (1 + mu) ^ k <= (1 + mu) ^ 12 -> Rabs x <= M * ((1 + mu) ^ k - 1) -> Rabs x <= position_error mu n s u).
  { intros k M x HM Hk Hx. refine (Rle_trans _ _ _ Hx _). unfold position_error. assert (Ek := P1 mu S HR k).
    refine (Rle_trans _ ((7 * IZR n + 4 + 2 * IZR s / u) * ((1 + mu) ^ k - 1)) _ _ _); [apply Rmult_le_compat_r; lra|apply Rmult_le_compat_l; [|lra]]. replace (2 * IZR s / u) with (2 * (IZR s / u)) by (field; lra). lra. }
  split.
  - apply (W 11%nat (3 * (2 * IZR n + 1 + IZR s / u / 2))); [replace (2 * IZR s / u) with (2 * (IZR s / u)) by (field; lra); lra|auto|apply N].
  - assert (C := cen_near mu S HR n H0). apply (nearw mu S HR 2 11) in C; [|lia]. assert (Q := near_opp _ _ _ _ (nearR mu S HR 11 _ _ _ (near_sub _ _ _ _ _ _ _ N C))).
    apply (W 12%nat (3 * (2 * IZR n + 1 + IZR s / u / 2) + (IZR n / 2 + 1))); [replace (2 * IZR s / u) with (2 * (IZR s / u)) by (field; lra); lra|lra|].
    rewrite <- node_grid. unfold node. replace (cen n - grid_at (zcen n m) u s i) with (- (grid_at (zcen n m) u s i - cen n)) by ring. apply Q.
Qed.

Lemma tail_fp_near B S eps mu T e us nf re rc mas mns ny nx c c' t1 t2 t3 u' u s1 s2 d :
  (0 < ny)%Z -> (0 < nx)%Z -> shape c = [ny; nx] -> shape c' = [ny; nx] -> 0 <= d ->
  (forall k l, (0 <= k < ny)%Z -> (0 <= l < nx)%Z -> Rabs (g2 c' k l - g2 c k l) <= d) ->
  rounds mu S -> mu <= 1 / 4 -> accurate_zoom eps T [ny; nx] B -> window_fp S e us ny nx (g2 c') mas mns nf = Ok (u', [s1; s2]) -> 0 < u -> near ((1 + mu) ^ 2) u u' u -> (0 < s1)%Z -> (0 < s2)%Z ->
  phase_room_fp T mu ny s1 u -> phase_room_fp T mu nx s2 u ->
  exists ym xm i j ups xv yv, is_argmin2 ny nx (g2 c') (ym, xm) /\ shape ups = [s1; s2] /\ is_argmin2 s1 s2 (g2 ups) (i, j) /\
    (forall y x, (0 <= y < s1)%Z -> (0 <= x < s2)%Z -> Rabs (g2 ups y x - chi2_at ny nx c (grid_shift ny ym s1 u y) (grid_shift nx xm s2 u x)) <=
       IZR (ny * nx) * d + (pixel_sum ny nx (fun k l => Rabs (g2 c k l)) + IZR (ny * nx) * d) * ((1 + eps) ^ 5 - 1) +
       PI * pixel_sum ny nx (fun k l => Rabs (g2 c k l)) * (position_error mu ny s1 u + position_error mu nx s2 u)) /\
    shape xv = [s1; s2] /\ shape yv = [s1; s2] /\
    (forall y x, (0 <= y < s1)%Z -> (0 <= x < s2)%Z -> Rabs (- g2 xv y x - grid_shift nx xm s2 u x) <= position_error mu nx s2 u /\ Rabs (- g2 yv y x - grid_shift ny ym s1 u y) <= position_error mu ny s1 u) /\
    chi2_shift_tail_fp B S e [ny; nx] (Chi2All c' t1 t2 t3) us nf re rc mas mns =
      (let! errs := chi2map_to_errors_fp S e ups u' 1 2 in
       let '(exl, exh, eyl, eyh) := errs in
       Ok ([RNum (- g2 xv i j); RNum (- g2 yv i j)] ++
          (if re then [RNum (sa_rd S (sa_rd S (exl + exh) / 2)); RNum (sa_rd S (sa_rd S (eyl + eyh) / 2))] else []) ++ (if rc then [RMaps xv yv ups] else []))).
Proof.
  intros Hy Hx Sc Sc' Hd0 Hd HR Hm HB W Hu Hn H1 H2 HTy HTx. assert (e0 := proj1 HB).
  assert (Sa := argmin2_spec ny nx (g2 c') Hy Hx). unfold chi2_shift_tail_fp.
  destruct (argmin2 ny nx (g2 c')) as [ym xm] eqn:Ea. assert (Sa' := Sa). destruct Sa' as [Sa1 [Sa2 _]]. cbn [fst snd] in *.
  assert (Hwin : (match us with
      | UAuto => let! u := auto_factor_fp S mas (auto_size_rd S e ny nx (g2 c') mns nf) in
                 Ok (u, [mas; mas])
      | u => explicit_window_fp S u ny nx
      end) = Ok (u', [s1; s2])) by (destruct us; exact W).
  rewrite Hwin. cbn [bind]. destruct (near_inv mu S HR u' u Hm Hu Hn) as [U' _].
  set (cy := sa_rd S (sa_rd S (IZR (ny - 1) / 2) + sa_rd S (IZR ym - cen_fp S ny))). set (cx := sa_rd S (sa_rd S (IZR (nx - 1) / 2) + sa_rd S (IZR xm - cen_fp S nx))).
  set (pos := fun c s i => let h := sa_rd S (sa_rd S (IZR (s - 1) / u') / 2) in linspace_at_fp S (sa_rd S (c - h)) (sa_rd S (c + h)) s i).
  assert (PY : forall i, (0 <= i < s1)%Z -> Rabs (pos cy s1 i - grid_at (zcen ny ym) u s1 i) <= position_error mu ny s1 u /\ Rabs (- sa_rd S (pos cy s1 i - cen_fp S ny) - grid_shift ny ym s1 u i) <= position_error mu ny s1 u)
    by (intros i Hi; apply (position_fp S mu ny ym s1 u' u i HR Hm Hu Hn Hy Sa1 Hi)).
  assert (PX : forall i, (0 <= i < s2)%Z -> Rabs (pos cx s2 i - grid_at (zcen nx xm) u s2 i) <= position_error mu nx s2 u /\ Rabs (- sa_rd S (pos cx s2 i - cen_fp S nx) - grid_shift nx xm s2 u i) <= position_error mu nx s2 u)
    by (intros i Hi; apply (position_fp S mu nx xm s2 u' u i HR Hm Hu Hn Hx Sa2 Hi)).
  assert (NODE : forall n m s i p, (0 <= m < n)%Z -> (0 <= i < s)%Z -> phase_room_fp T mu n s u -> Rabs (p - grid_at (zcen n m) u s i) <= position_error mu n s u -> PI * Rabs p <= T).
  { intros n m s i p Hmm Hi HP Hp. refine (Rle_trans _ _ _ _ HP). apply Rmult_le_compat_l; [left; apply PI_RGT_0|].
    replace p with (grid_at (zcen n m) u s i + (p - grid_at (zcen n m) u s i)) by ring. refine (Rle_trans _ _ _ (Rabs_triang _ _) _). apply Rplus_le_compat; [|exact Hp]. unfold grid_at. rewrite zcen_val.
    refine (Rle_trans _ _ _ (Rabs_triang _ _) _). apply Rplus_le_compat.
    - assert (M1 : IZR m <= IZR n - 1) by (rewrite <- minus_IZR; apply IZR_le; lia). assert (M0 : 0 <= IZR m) by (apply IZR_le; lia). apply Rabs_le. destruct (Z.even n); lra.
    - unfold Rdiv at 1. rewrite Rabs_mult, (Rabs_right (/ u)) by (left; apply Rinv_0_lt_compat; auto).
      replace (IZR s / (2 * u)) with (IZR s / 2 * / u) by (field; lra). apply Rmult_le_compat_r; [left; apply Rinv_0_lt_compat; auto|].
      assert (I1 : IZR i <= IZR s - 1) by (rewrite <- minus_IZR; apply IZR_le; lia). assert (I0 : 0 <= IZR i) by (apply IZR_le; lia). apply Rabs_le. lra. }
  assert (HS : shape (RtoCa c') = [ny; nx]) by exact Sc'.
  destruct (zoom_fp_ok B S eps T (RtoCa c') ny nx cy cx u' s1 s2 HB HS Hy Hx U' H1 H2) as [xs [ups [Z1 [U1 Z4]]]].
  { intros i Hi. apply (NODE ny ym s1 i); auto. apply (PY i Hi). }
  { intros i Hi. apply (NODE nx xm s2 i); auto. apply (PX i Hi). }
  fold pos in Z4.
  assert (Hz : zoomnd_fp B S (RtoCa c') [sa_rd S (IZR ym - cen_fp S ny); sa_rd S (IZR xm - cen_fp S nx)] (fun x => x) u' (Some [s1; s2]) true true = Ok (Some xs, RealArr ups)).
  { unfold zoomnd_fp. unfold ndim. rewrite HS. cbn [length Nat.ltb Nat.leb Nat.eqb negb andb zipw]. exact Z1. }
  rewrite Hz. cbn [bind].
  destruct (Z.leb_spec s1 0); [lia|]. destruct (Z.leb_spec s2 0); [lia|]. cbn [orb].
  assert (Sb := argmin2_spec s1 s2 (g2 ups) H1 H2). destruct (argmin2 s1 s2 (g2 ups)) as [i j] eqn:Ei. assert (Sb' := Sb). destruct Sb as [B1 [B2 [B3 _]]]. cbn [fst snd] in *.
  exists ym, xm, i, j, ups, (mk2 s1 s2 (fun i j => sa_rd S (get xs [1%Z; i; j] - cen_fp S nx))), (mk2 s1 s2 (fun i j => sa_rd S (get xs [0%Z; i; j] - cen_fp S ny))).
  split; [exact Sa|]. split; [exact U1|]. split; [exact Sb'|]. split.
  2:{ split; [reflexivity|]. split; [reflexivity|]. split.
      { intros y x Hyy Hxx. destruct (Z4 y x Hyy Hxx) as [Q0 [Q1 _]]. unfold g2. cbn [mk2 get]. rewrite Q0, Q1. split; [apply (PX x Hxx)|apply (PY y Hyy)]. }
      destruct (chi2map_to_errors_fp S e ups u' 1 2) as [[[[exl exh] eyl] eyh]|x]; cbn [bind]; reflexivity. }
  assert (PZ : prodZ [ny; nx] = (ny * nx)%Z) by (cbn; lia).
  assert (PN : 0 < IZR (ny * nx)) by (apply IZR_lt; nia).
  intros y x Hyy Hxx.
  assert (EM : forall cc, chi2_at ny nx cc (grid_shift ny ym s1 u y) (grid_shift nx xm s2 u x) = trig_interpR [ny; nx] (get cc) [grid_at (zcen ny ym) u s1 y; grid_at (zcen nx xm) u s2 x]).
  { intros cc. unfold chi2_at. rewrite <- !node_grid. unfold node. rewrite !cen_int. f_equal. f_equal; [|f_equal]; ring. }
  rewrite EM. set (P := [grid_at (zcen ny ym) u s1 y; grid_at (zcen nx xm) u s2 x]). set (P' := [pos cy s1 y; pos cx s2 x]).
  assert (T0 : Rabs (trig_interpR [ny; nx] (get c) P' - trig_interpR [ny; nx] (get c) P) <= PI * pixel_sum ny nx (fun k l => Rabs (g2 c k l)) * (position_error mu ny s1 u + position_error mu nx s2 u)).
  { refine (Rle_trans _ _ _ (trig_interpR_lip [ny; nx] (get c) P' P (pos2 _ _ Hy Hx) eq_refl) _). rewrite sum2_sumNR. apply Rmult_le_compat_l.
    - apply Rmult_le_pos; [left; apply PI_RGT_0|]. apply sumR_nonneg; intros; apply sumR_nonneg; intros; apply Rabs_pos.
    - unfold P', P. cbn [L_iterzoom2.l1]. rewrite Rplus_0_r. apply Rplus_le_compat; [apply (PY y Hyy)|apply (PX x Hxx)]. }
  assert (T1 : Rabs (trig_interpR [ny; nx] (get c') P' - trig_interpR [ny; nx] (get c) P') <= IZR (ny * nx) * d).
  { rewrite <- PZ. apply tiR_near; [apply pos2; auto|]. intros q Hq. apply inb2' in Hq. destruct Hq as [k [l [-> [Hk Hl]]]]. apply Hd; auto. }
  assert (T2 : Rabs (g2 ups y x - trig_interpR [ny; nx] (get c') P') <= mod_sum (RtoCa c') * ((1 + eps) ^ 5 - 1)).
  { destruct (Z4 y x Hyy Hxx) as [_ [_ Z7]]. unfold P'. rewrite <- interpN_realpart by auto using pos2. exact Z7. }
  assert (T3 : mod_sum (RtoCa c') <= pixel_sum ny nx (fun k l => Rabs (g2 c k l)) + IZR (ny * nx) * d).
  { unfold mod_sum. rewrite HS, sum2_sumNR. replace (IZR (ny * nx) * d) with (pixel_sum ny nx (fun _ _ => d)) by (change (pixel_sum ny nx) with (sum2 ny nx); rewrite sum2_const by lia; reflexivity).
    change (pixel_sum ny nx) with (sum2 ny nx). rewrite <- sum2_plus. apply sum2_le. intros k l Hk Hl. cbn [RtoCa amap get]. rewrite Cmod_R.
    specialize (Hd k l Hk Hl). unfold g2 in *. assert (Q := Rabs_triang (get c' [k; l] - get c [k; l]) (get c [k; l])).
    replace (get c' [k; l] - get c [k; l] + get c [k; l]) with (get c' [k; l]) in Q by ring. lra. }
  assert (P5 := pow_ge1 eps 5 e0).
  assert (T4 := Rmult_le_compat_r ((1 + eps) ^ 5 - 1) _ _ ltac:(lra) T3).
  set (v1 := trig_interpR [ny; nx] (get c') P') in *. set (v2 := trig_interpR [ny; nx] (get c) P') in *. set (v3 := trig_interpR [ny; nx] (get c) P) in *.
  apply Rcomplements.Rabs_le_between in T0. apply Rcomplements.Rabs_le_between in T1. apply Rcomplements.Rabs_le_between in T2. apply Rabs_le. lra.
Qed.

Theorem C122_rounded_answer :
  forall A S B eps mu T e im1 im2 err us nthreads use_np zeromean nfitted (ret_err ret_arr : bool) mas mns allow_huge ny nx u s1 s2 t map0 t1 t2 t3 ym xm i j,
  shape im1 = [ny; nx] -> shape im2 = [ny; nx] -> (0 < ny)%Z -> (0 < nx)%Z -> err_ok err ny nx -> size_ok e allow_huge ny nx ->
  grid_given us ny nx mas -> final_grid e us ny nx map0 ym xm mas mns nfitted u s1 s2 -> factor_clear mu us ny ->
  phase_room_fp T mu ny s1 u -> phase_room_fp T mu nx s2 u -> one_sigma e t ->
  accurate eps [ny; nx] A -> accurate_scalar eps (Z.to_nat (ny * nx)) S -> accurate_zoom eps T [ny; nx] B -> eps <= 1 / 2 ->
  rounds mu S -> mu <= 1 / 4 -> sa_rd S 1 = 1 ->
  chi2n_map e im1 im2 err BWrap nthreads zeromean use_np true false allow_huge = Ok (Chi2All map0 t1 t2 t3) ->
  (0 <= ym < ny)%Z -> (0 <= xm < nx)%Z -> (0 <= i < s1)%Z -> (0 <= j < s2)%Z ->
  let d := chi2_error eps zeromean err im1 im2 ny nx in let D := node_error_fp eps mu zeromean err im1 im2 ny nx map0 u s1 s2 in
  let chi2_node := fun a b => chi2_at ny nx map0 (grid_shift ny ym s1 u a) (grid_shift nx xm s2 u b) in
  (* the minima are clear of the rounding errors *)
  (forall k l, (0 <= k < ny)%Z -> (0 <= l < nx)%Z -> (k, l) <> (ym, xm) -> g2 map0 ym xm + 2 * d < g2 map0 k l) ->
  (forall a b, (0 <= a < s1)%Z -> (0 <= b < s2)%Z -> (a, b) <> (i, j) -> chi2_node i j + 2 * D < chi2_node a b) ->
  (* no pixel is at the level of the automatic factor *)
  (us = UAuto -> forall k l, (0 <= k < ny)%Z -> (0 <= l < nx)%Z ->
     match auto_level e mns nfitted with Fin lv => clear_of eps d lv (g2 map0 k l - g2 map0 ym xm) | NaN => True end) ->
  exists dx dy ex ey dx' dy' ex' ey' xs xs' ys ys' ups ups',
    chi2_shift_fp A S B e im1 im2 err us BWrap zeromean nfitted ret_err ret_arr mas mns allow_huge =
      Ok ([RNum dx; RNum dy] ++ (if ret_err then [RNum ex; RNum ey] else []) ++ (if ret_arr then [RMaps xs ys ups] else [])) /\
    chi2_shift e im1 im2 err us BWrap nthreads use_np zeromean nfitted false ret_err ret_arr mas mns allow_huge =
      Ok ([RNum dx'; RNum dy'] ++ (if ret_err then [RNum ex'; RNum ey'] else []) ++ (if ret_arr then [RMaps xs' ys' ups'] else [])) /\
    (* offsets *)
    Rabs (dx - dx') <= position_error mu nx s2 u /\ Rabs (dy - dy') <= position_error mu ny s1 u /\
    (* coordinates and chi2 in the returned maps *)
    shape xs = [s1; s2] /\ shape xs' = [s1; s2] /\ shape ys = [s1; s2] /\ shape ys' = [s1; s2] /\ shape ups = [s1; s2] /\ shape ups' = [s1; s2] /\
    (forall a b, (0 <= a < s1)%Z -> (0 <= b < s2)%Z ->
       Rabs (g2 xs a b - g2 xs' a b) <= position_error mu nx s2 u /\ Rabs (g2 ys a b - g2 ys' a b) <= position_error mu ny s1 u /\ Rabs (g2 ups a b - g2 ups' a b) <= D) /\
    (* no node is at the 1-sigma level: the error bars *)
    ((forall a b, (0 <= a < s1)%Z -> (0 <= b < s2)%Z -> clear_of eps D t (chi2_node a b - chi2_node i j)) ->
       Rabs (ex - ex') <= bar_error mu s2 u /\ Rabs (ey - ey') <= bar_error mu s1 u).
Proof.
  intros A S B eps mu T e im1 im2 err us nt np zm nf re rc mas mns huge ny nx u s1 s2 t c t1 t2 t3 ym xm i j H1 H2 Hy Hx He Hh Hg FG Hf HTy HTx Ht HA HS HB Heps HR Hmu HR1 Em Hym Hxm Hi Hj d D node G1 G2 GA.
  destruct (map_rd_near A S eps e im1 im2 err zm true false huge ny nx H1 H2 Hy Hx He Hh ltac:(discriminate) HA HS Heps) as [c' [t1' [t2' [t3' [E' [Sc' V']]]]]].
  destruct (chi2n_map_ok e im1 im2 err nt zm np true false huge ny nx H1 H2 Hy Hx He Hh ltac:(discriminate)) as [c1 [a1 [a2 [a3 [E [Sc [_ [_ V]]]]]]]].
  rewrite Em in E. injection E as <- <- <- <-.
  assert (Dd : forall k l, (0 <= k < ny)%Z -> (0 <= l < nx)%Z -> Rabs (g2 c' k l - g2 c k l) <= d).
  { intros k l Hk Hl. destruct (V k l Hk Hl) as [_ [_ ->]]. apply (V' k l Hk Hl). }
  assert (D0 : 0 <= d) by (refine (Rle_trans _ _ _ (Rabs_pos _) (Dd 0%Z 0%Z ltac:(lia) ltac:(lia)))).
  assert (ND2 : forall p q : Z * Z, {p = q} + {p <> q}) by (decide equality; apply Z.eq_dec).
  (* the exact call *)
  destruct (C43_full_result e im1 im2 err us nt np zm nf re rc mas mns huge ny nx t H1 H2 Hy Hx He Hh Hg Ht)
    as [c1 [a1 [a2 [a3 [ym0 [xm0 [u0 [r1 [r2 [xv [yv [ups [i0 [j0 [xlo [xhi [ylo [yhi [F1 [F2 [F3 [F4 [F5 [F6 [F7 [F8 [F9 F10]]]]]]]]]]]]]]]]]]]]]]]]]]].
  rewrite Em in F1. injection F1 as <- <- <- <-.
  assert (E1 : (ym0, xm0) = (ym, xm)).
  { destruct (ND2 (ym0, xm0) (ym, xm)) as [Q|Q]; [exact Q|exfalso]. destruct F2 as [A1 [A2 [A3 _]]]. cbn [fst snd] in *. specialize (G1 ym0 xm0 A1 A2 Q). specialize (A3 ym xm Hym Hxm). lra. }
  injection E1 as -> ->.
  destruct (final_window e us ny nx c ym xm mas mns nf Hy Hx Hg F2) as [u1 [q1 [q2 [WI [FG1 [U0 [P1' P2']]]]]]].
  destruct (final_grid_unique _ _ _ _ _ _ _ _ _ _ _ _ _ _ _ _ FG FG1) as [-> [-> ->]].
  destruct (final_grid_unique _ _ _ _ _ _ _ _ _ _ _ _ _ _ _ _ FG F3) as [-> [-> ->]]. clear FG1 F3.
  assert (Mn : min2 ny nx (g2 c) = g2 c ym xm).
  { unfold min2. rewrite (is_argmin2_unique ny nx (g2 c) _ (ym, xm) (argmin2_spec ny nx (g2 c) Hy Hx) F2). reflexivity. }
  destruct (window_near S eps mu (Z.to_nat (ny * nx)) e us ny nx (g2 c) (g2 c') mas mns nf d u s1 s2 HS Heps HR Hmu HR1 D0 Hy Hx Hg Hf Dd) as [u' [WR Hn]]; [rewrite Mn; exact GA|exact WI|exact U0|].
  destruct (tail_fp_near B S eps mu T e us nf re rc mas mns ny nx c c' t1' t2' t3' u' u s1 s2 d Hy Hx Sc Sc' D0 Dd HR Hmu HB WR U0 Hn P1' P2' HTy HTx)
    as [ym0 [xm0 [i1 [j1 [ups' [xv' [yv' [K1 [K2 [K3 [K4 [KX [KY [KV K5]]]]]]]]]]]]]].
  assert (E1 : (ym0, xm0) = (ym, xm)).
  { destruct (ND2 (ym0, xm0) (ym, xm)) as [Q|Q]; [exact Q|exfalso]. destruct K1 as [A1 [A2 [A3 _]]]. cbn [fst snd] in *. specialize (G1 ym0 xm0 A1 A2 Q). specialize (A3 ym xm Hym Hxm).
    assert (N1 := Dd ym0 xm0 A1 A2). assert (N2 := Dd ym xm Hym Hxm). apply Rcomplements.Rabs_le_between in N1. apply Rcomplements.Rabs_le_between in N2. lra. }
  injection E1 as -> ->.
  assert (K4' : forall y x, (0 <= y < s1)%Z -> (0 <= x < s2)%Z -> Rabs (g2 ups' y x - node y x) <= D) by exact K4.
  assert (D1 : 0 <= D) by (refine (Rle_trans _ _ _ (Rabs_pos _) (K4' 0%Z 0%Z ltac:(lia) ltac:(lia)))).
  assert (E2 : (i0, j0) = (i, j)).
  { destruct (ND2 (i0, j0) (i, j)) as [Q|Q]; [exact Q|exfalso]. destruct F8 as [A1 [A2 [A3 _]]]. cbn [fst snd] in *. specialize (G2 i0 j0 A1 A2 Q). specialize (A3 i j Hi Hj).
    destruct (F7 i0 j0 A1 A2) as [_ [_ W1]]. destruct (F7 i j Hi Hj) as [_ [_ W2]]. rewrite W1, W2 in A3. unfold node in G2. lra. }
  injection E2 as -> ->.
  assert (E2 : (i1, j1) = (i, j)).
  { destruct (ND2 (i1, j1) (i, j)) as [Q|Q]; [exact Q|exfalso]. destruct K3 as [A1 [A2 [A3 _]]]. cbn [fst snd] in *. specialize (G2 i1 j1 A1 A2 Q). specialize (A3 i j Hi Hj).
    assert (N1 := K4' i1 j1 A1 A2). assert (N2 := K4' i j Hi Hj). apply Rcomplements.Rabs_le_between in N1. apply Rcomplements.Rabs_le_between in N2. lra. }
  injection E2 as -> ->.
  apply one_sigma_thr in Ht. destruct Ht as [Ht Ht0]. destruct (near_inv mu S HR u' u Hmu U0 Hn) as [U' _].
  destruct (errors_fp_ok S eps _ e ups' u' s1 s2 t HS K2 P1' P2' U' Ht Ht0) as [b1 [b2 [b3 [b4 Er]]]].
  exists (- g2 xv' i j), (- g2 yv' i j), (sa_rd S (sa_rd S (b1 + b2) / 2)), (sa_rd S (sa_rd S (b3 + b4) / 2)), (grid_shift nx xm s2 u j), (grid_shift ny ym s1 u i), ((xlo + xhi) / 2), ((ylo + yhi) / 2), xv', xv, yv', yv, ups', ups.
  split; [unfold chi2_shift_fp; rewrite E'; cbn [bind]; rewrite H1, K5, Er; reflexivity|]. split; [exact F10|].
  split; [apply (KV i j Hi Hj)|]. split; [apply (KV i j Hi Hj)|].
  split; [exact KX|]. split; [exact F4|]. split; [exact KY|]. split; [exact F5|]. split; [exact K2|]. split; [exact F6|].
  split.
  { intros a b Ha Hb. destruct (KV a b Ha Hb) as [L1 L2]. destruct (F7 a b Ha Hb) as [-> [-> ->]]. rewrite <- Rabs_Ropp in L1. rewrite <- Rabs_Ropp in L2.
    replace (- (- g2 xv' a b - grid_shift nx xm s2 u b)) with (g2 xv' a b - - grid_shift nx xm s2 u b) in L1 by ring.
    replace (- (- g2 yv' a b - grid_shift ny ym s1 u a)) with (g2 yv' a b - - grid_shift ny ym s1 u a) in L2 by ring. split; [exact L1|]. split; [exact L2|exact (K4' a b Ha Hb)]. }
  intros GC.
  assert (Au : argmin2 s1 s2 (g2 ups) = (i, j)) by (apply (is_argmin2_unique s1 s2 (g2 ups)); [apply argmin2_spec; auto|exact F8]).
  assert (Au' : argmin2 s1 s2 (g2 ups') = (i, j)) by (apply (is_argmin2_unique s1 s2 (g2 ups')); [apply argmin2_spec; auto|exact K3]).
  assert (AR : area_rd S s1 s2 (g2 ups') (Fin t) = area s1 s2 (g2 ups) (Fin t)).
  { apply (area_same S eps (Z.to_nat (ny * nx)) s1 s2 (g2 ups) (g2 ups') D t HS Heps D1 P1' P2').
    - intros k l Hk Hl. destruct (F7 k l Hk Hl) as [_ [_ W]]. rewrite W. apply (K4' k l Hk Hl).
    - intros k l Hk Hl. unfold min2. rewrite Au. cbn [fst snd]. destruct (F7 k l Hk Hl) as [_ [_ W]]. destruct (F7 i j Hi Hj) as [_ [_ W2]]. rewrite W, W2. apply (GC k l Hk Hl). }
  destruct (errors_fp_near S mu e ups' ups u' u s1 s2 t xlo xhi ylo yhi HR Hmu U0 Hn P1' P2' K2 F6 ltac:(congruence) Ht AR) as [k1 [k2 [k3 [k4 [Er' [B1 B2]]]]]]; [|exact F9|].
  - rewrite <- AR. apply (area_rd_min S eps (Z.to_nat (ny * nx)) s1 s2 (g2 ups') t HS P1' P2' Ht0).
  - rewrite Er in Er'. injection Er' as <- <- <- <-. auto.
Qed.
Print Assumptions C122_rounded_answer.

Lemma linspace_at_fp_exact start stop num j : linspace_at_fp exact_sarith start stop num j = linspace_at start stop num j.
Proof.
  unfold linspace_at_fp, linspace_at. cbn [exact_sarith sa_rd]. destruct (Z.leb_spec num 1); [ring|].
  assert (P : IZR (num - 1) <> 0) by (apply not_0_IZR; lia).
  destruct (Z.eqb_spec j (num - 1)) as [->|]; [field; auto|].
  destruct (Req_EM_T _ _) as [Q|]; [|ring]. rewrite Q. assert (E : stop - start = 0) by (replace (stop - start) with ((stop - start) / IZR (num - 1) * IZR (num - 1)) by (field; auto); rewrite Q; ring).
  rewrite E. ring.
Qed.
Lemma zoomnd_fp_exact B inp off mc u o rr rx : zoomnd_fp B exact_sarith inp off mc u o rr rx = zoomnd_with B inp off mc u o rr rx.
Proof.
  unfold zoomnd_fp, zoomnd_with. cbn [exact_sarith sa_rd]. destruct (_ && _); [reflexivity|]. unfold zoom_on_pixel_fp, zoom_on_pixel_with.
  assert (G : axis_grid_fp exact_sarith = axis_grid).
  { repeat (apply functional_extensionality; intro). unfold axis_grid_fp, axis_grid. destruct (nth_error _ _); [|reflexivity]. cbn [exact_sarith sa_rd]. apply linspace_at_fp_exact. }
  rewrite G. reflexivity.
Qed.
Lemma chi2_shift_fp_exact A B e im1 im2 err us b zm nf re rc mas mns huge :
  chi2_shift_fp A exact_sarith B e im1 im2 err us b zm nf re rc mas mns huge = chi2_shift_all_rd A exact_sarith B e im1 im2 err us b zm nf re rc mas mns huge.
Proof.
  unfold chi2_shift_fp, chi2_shift_all_rd. destruct (chi2n_map_rd _ _ _ _ _ _ _ _ _ _ _) as [r|]; [|reflexivity]. cbn [bind].
  unfold chi2_shift_tail_fp, chi2_shift_tail_rd. destruct r as [c|c t1 t2 t3]; [reflexivity|]. destruct (shape im1) as [|ny [|nx [|]]]; try reflexivity.
  destruct (argmin2 ny nx (g2 c)) as [ym xm]. cbn [exact_sarith sa_rd]. unfold cen_fp. cbn [sa_rd].
  match goal with |- bind ?w _ = bind ?w' _ => assert (W : w = w') by (destruct us; reflexivity); rewrite W; destruct w' as [[u o]|]; [|reflexivity] end.
  cbn [bind]. rewrite zoomnd_fp_exact. reflexivity.
Qed.
(** with exact operations this is the model of chi2_shift used by the other properties *)
Theorem C122_exact :
  forall e im1 im2 err us b nthreads use_np zeromean nfitted ret_err ret_arr mas mns allow_huge,
  chi2_shift_fp (exact_arith (e_fftw e) nthreads use_np) exact_sarith (exact_zarith (e_fftw e) 1 false) e im1 im2 err us b zeromean nfitted ret_err ret_arr mas mns allow_huge =
  chi2_shift e im1 im2 err us b nthreads use_np zeromean nfitted false ret_err ret_arr mas mns allow_huge.
Proof. intros. rewrite chi2_shift_fp_exact, chi2_shift_all_rd_exact, chi2_shift_exact. reflexivity. Qed.
Print Assumptions C122_exact.
