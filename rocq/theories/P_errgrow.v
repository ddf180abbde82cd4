(** C96: how the error bars of chi2_shift follow the error *)
From Coq Require Import ZArith Lia List Reals Lra Bool.
From Coquelicot Require Import Complex.
From Verif Require Import Base NDim DFT Kernel Num Py M_fast_ffts M_shift M_scale M_zoom M_upsample M_downsample M_convolve M_correlate Arg M_chi2 M_xcorr M_register
  Spec L_shift L_scale L_zoom L_upsample L_convolve Sum2 Spec2 Spec3 Spec4 L_correlate L_chi2 L_chi2shift L_fshift L_xcorr L_register L_register2
  P_chi2map P_chi2shift P_chi2errors P_chi2shift2.
Import ListNotations.
Open Scope R_scope.

Lemma err_pair e im1 im2 us s s' nt np zm nf mas mns huge ny nx u s1 s2 t :
  shape im1 = [ny; nx] -> shape im2 = [ny; nx] -> (0 < ny)%Z -> (0 < nx)%Z -> s <> 0 -> s' <> 0 -> size_ok e huge ny nx ->
  explicit_grid us ny nx u s1 s2 -> one_sigma e t ->
  exists M x y yl yh xl xh yl' yh' xl' xh' xv yv ups,
    (exists c t1 t2 t3 ym xm, chi2n_map e im1 im2 (ErrScalar s) BWrap nt zm np true false huge = Ok (Chi2All c t1 t2 t3) /\
       (ym, xm) = argmin2 ny nx (g2 c) /\ forall a b, M a b = chi2_at ny nx c (grid_shift ny ym s1 u a) (grid_shift nx xm s2 u b)) /\
    (forall a b, (0 <= a < s1)%Z -> (0 <= b < s2)%Z -> g2 ups a b = M a b) /\
    0 < u /\ (0 < s1)%Z /\ (0 < s2)%Z /\ 0 < t /\
    extent s1 s2 M t yl yh xl xh /\ extent s1 s2 (fun a b => s ^ 2 / s' ^ 2 * M a b) t yl' yh' xl' xh' /\
    chi2_shift e im1 im2 (ErrScalar s) us BWrap nt np zm nf false true true mas mns huge =
      Ok [RNum x; RNum y; RNum (IZR (xh - xl) / u / 2); RNum (IZR (yh - yl) / u / 2); RMaps xv yv ups] /\
    chi2_shift e im1 im2 (ErrScalar s) us BWrap nt np zm nf false true false mas mns huge =
      Ok [RNum x; RNum y; RNum (IZR (xh - xl) / u / 2); RNum (IZR (yh - yl) / u / 2)] /\
    chi2_shift e im1 im2 (ErrScalar s') us BWrap nt np zm nf false true false mas mns huge =
      Ok [RNum x; RNum y; RNum (IZR (xh' - xl') / u / 2); RNum (IZR (yh' - yl') / u / 2)].
Proof.
  intros H1 H2 Hy Hx Hs Hs' Hh Hg Ht.
  destruct (chi2n_map_ok e im1 im2 (ErrScalar s) nt zm np true false huge ny nx H1 H2 Hy Hx Hs Hh ltac:(discriminate)) as [c [t1 [t2 [t3 [E [S1 [_ [_ V]]]]]]]].
  destruct (chi2n_map_ok e im1 im2 (ErrScalar s') nt zm np true false huge ny nx H1 H2 Hy Hx Hs' Hh ltac:(discriminate)) as [c' [t1' [t2' [t3' [E' [S1' [_ [_ V']]]]]]]].
  destruct (explicit_window_ok e us ny nx u s1 s2 (g2 c) mas mns nf Hy Hx Hg) as [W [W1 [W2 W3]]].
  destruct (explicit_window_ok e us ny nx u s1 s2 (g2 c') mas mns nf Hy Hx Hg) as [W' _].
  apply one_sigma_thr in Ht. destruct Ht as [Ht Ht0].
  set (k := s ^ 2 / s' ^ 2). assert (Hk : 0 < k).
  { unfold k. assert (0 < s * s) by (apply Rsqr_pos_lt; auto). assert (0 < s' * s') by (apply Rsqr_pos_lt; auto).
    apply Rdiv_lt_0_compat; simpl; lra. }
  assert (Hck : forall a b, (0 <= a < ny)%Z -> (0 <= b < nx)%Z -> g2 c' a b = k * g2 c a b).
  { intros a b Ha Hb. destruct (V a b Ha Hb) as [_ [_ ->]]. destruct (V' a b Ha Hb) as [_ [_ ->]]. unfold chi2_of.
    change (pixel_sum ny nx) with (sum2 ny nx). rewrite <- sum2_scal. apply sum2_ext. intros i j Hi Hj. cbn [sigma_of].
    unfold k. change (used_image zm (ErrScalar s') ) with (used_image zm (ErrScalar s)). field. auto. }
  assert (Hmono : forall x y, x < y <-> k * x < k * y).
  { intros x y. split; intros H; [apply Rmult_lt_compat_l; auto|apply Rmult_lt_reg_l in H; auto]. }
  assert (K0 := chi2_shift_ok e im1 im2 (ErrScalar s) us BWrap nt np zm nf true false mas mns huge ny nx c t1 t2 t3 u s1 s2 t H1 Hy Hx E S1 W W1 W2 W3 Ht Ht0).
  assert (K := chi2_shift_ok e im1 im2 (ErrScalar s) us BWrap nt np zm nf true true mas mns huge ny nx c t1 t2 t3 u s1 s2 t H1 Hy Hx E S1 W W1 W2 W3 Ht Ht0).
  assert (K' := chi2_shift_ok e im1 im2 (ErrScalar s') us BWrap nt np zm nf true false mas mns huge ny nx c' t1' t2' t3' u s1 s2 t H1 Hy Hx E' S1' W' W1 W2 W3 Ht Ht0).
  rewrite (argmin2_mono ny nx (g2 c') (g2 c)) in K'; auto.
  2:{ intros a b a' b' Ha Hb Ha' Hb'. rewrite !Hck by auto. symmetry. apply Hmono. }
  destruct (argmin2 ny nx (g2 c)) as [ym xm] eqn:EAM. cbv zeta in K0, K, K'.
  set (M := fun i j => trig_interpR [ny; nx] (get c) [grid_at (zcen ny ym) u s1 i; grid_at (zcen nx xm) u s2 j]) in *.
  assert (T : forall p, trig_interpR [ny; nx] (get c') p = k * trig_interpR [ny; nx] (get c) p).
  { intros p. rewrite <- tiR_scal. apply tiR_ext. intros y Hin. apply inb2' in Hin. destruct Hin as [q [l [-> [Hq Hl]]]]. apply (Hck q l Hq Hl). }
  destruct K0 as [ups0 [i0 [j0 [yl0 [yh0 [xl0 [xh0 [Ea0 [_ [_ [X0 [_ [_ [_ [_ [_ K0]]]]]]]]]]]]]]]].
  destruct K as [ups [i [j [yl [yh [xl [xh [Ea [Su [Vu [X [xv [yv [Sx [Sy [Vx K]]]]]]]]]]]]]]]].
  destruct K' as [ups' [i' [j' [yl' [yh' [xl' [xh' [Ea' [Su' [Vu' [X' [xv' [yv' [Sx' [Sy' [Vx' K']]]]]]]]]]]]]]]].
  rewrite <- Ea in Ea0. injection Ea0 as -> ->.
  assert (EA : (i', j') = (i, j)).
  { rewrite Ea, Ea'. apply argmin2_mono; auto. intros a b a' b' Ha Hb Ha' Hb'. rewrite !T. symmetry. apply Hmono. }
  injection EA as -> ->.
  assert (UN : yl0 = yl /\ yh0 = yh /\ xl0 = xl /\ xh0 = xh).
  { destruct X as [[x1 B1] [[x2 B2] [[y3 B3] [[y4 B4] B5]]]]. destruct X0 as [[x1' C1] [[x2' C2] [[y3' C3] [[y4' C4] C5]]]].
    apply C5 in B1, B2, B3, B4. apply B5 in C1, C2, C3, C4. lia. }
  destruct UN as [-> [-> [-> ->]]].
  eexists M, _, _, yl, yh, xl, xh, yl', yh', xl', xh', xv, yv, ups.
  split.
  { exists c, t1, t2, t3, ym, xm. split; [exact E|]. split; [symmetry; exact EAM|]. intros a b. unfold chi2_at, M.
    rewrite <- !node_grid. unfold node. rewrite !cen_int. f_equal. f_equal; [|f_equal]; ring. }
  split; [exact Vu|]. do 4 (split; [assumption|]). split; [exact X|]. split.
  2:{ split; [exact K|]. split; [exact K0|exact K']. }
  assert (IW : forall a b, inwin s1 s2 (fun i1 j1 => trig_interpR [ny; nx] (get c') [grid_at (zcen ny ym) u s1 i1; grid_at (zcen nx xm) u s2 j1]) t a b <-> inwin s1 s2 (fun a0 b0 => k * M a0 b0) t a b).
  { assert (F : (fun i1 j1 : Z => trig_interpR [ny; nx] (get c') [grid_at (zcen ny ym) u s1 i1; grid_at (zcen nx xm) u s2 j1]) = (fun a0 b0 : Z => k * M a0 b0)).
    { apply FunctionalExtensionality.functional_extensionality. intros a0. apply FunctionalExtensionality.functional_extensionality. intros b0. apply T. }
    rewrite F. tauto. }
  destruct X' as [[x1 B1] [[x2 B2] [[y3 B3] [[y4 B4] B5]]]].
  split; [exists x1; apply IW; exact B1|]. split; [exists x2; apply IW; exact B2|]. split; [exists y3; apply IW; exact B3|]. split; [exists y4; apply IW; exact B4|].
  intros a b Q. apply B5, IW, Q.
Qed.

Lemma inwin_scaled s1 s2 M t k : (0 < s1)%Z -> (0 < s2)%Z -> 0 < k -> forall a b,
  inwin s1 s2 (fun a b => k * M a b) t a b <-> (0 <= a < s1)%Z /\ (0 <= b < s2)%Z /\ k * (M a b - min2 s1 s2 M) < t.
Proof.
  intros H1 H2 Hk a b. unfold inwin, min2.
  assert (E : argmin2 s1 s2 (fun a b => k * M a b) = argmin2 s1 s2 M).
  { apply argmin2_mono; auto. intros. split; intros HH; [apply Rmult_lt_reg_l in HH; auto|apply Rmult_lt_compat_l; auto]. }
  rewrite E. destruct (argmin2 s1 s2 M) as [i j]. cbn [fst snd]. intuition lra.
Qed.

(** a larger constant error gives the same offsets and error bars that are not smaller *)
Theorem C96_error_bars_grow_with_the_error :
  forall e im1 im2 us s s' nthreads use_np zeromean nfitted mas mns allow_huge ny nx u s1 s2 t,
  shape im1 = [ny; nx] -> shape im2 = [ny; nx] -> (0 < ny)%Z -> (0 < nx)%Z -> size_ok e allow_huge ny nx ->
  explicit_grid us ny nx u s1 s2 -> one_sigma e t -> s <> 0 -> Rabs s <= Rabs s' ->
  exists x y ex ey ex' ey',
    chi2_shift e im1 im2 (ErrScalar s) us BWrap nthreads use_np zeromean nfitted false true false mas mns allow_huge = Ok [RNum x; RNum y; RNum ex; RNum ey] /\
    chi2_shift e im1 im2 (ErrScalar s') us BWrap nthreads use_np zeromean nfitted false true false mas mns allow_huge = Ok [RNum x; RNum y; RNum ex'; RNum ey'] /\
    ex <= ex' /\ ey <= ey'.
Proof.
  intros e im1 im2 us s s' nt np zm nf mas mns huge ny nx u s1 s2 t H1 H2 Hy Hx Hh Hg Ht Hs Hle.
  assert (Hs' : s' <> 0) by (intros ->; rewrite Rabs_R0 in Hle; assert (Q := Rabs_pos_lt s Hs); lra).
  destruct (err_pair e im1 im2 us s s' nt np zm nf mas mns huge ny nx u s1 s2 t) as [M [x [y [yl [yh [xl [xh [yl' [yh' [xl' [xh' [xv [yv [ups [_ [_ [Hu [P1 [P2 [T0 [X [X' [_ [K K']]]]]]]]]]]]]]]]]]]]]]]]; auto.
  do 6 eexists. split; [exact K|]. split; [exact K'|].
  assert (SQ : s ^ 2 <= s' ^ 2) by (rewrite <- !(pow2_abs s), <- !(pow2_abs s'); apply pow_incr; split; [apply Rabs_pos|exact Hle]).
  assert (Sp : 0 < s ^ 2) by (simpl; rewrite Rmult_1_r; apply Rsqr_pos_lt; auto).
  set (k := s ^ 2 / s' ^ 2) in *.
  assert (Hk : 0 < k) by (apply Rdiv_lt_0_compat; lra).
  assert (Hk1 : k <= 1) by (unfold k; apply (Rmult_le_reg_r (s' ^ 2)); [lra|]; unfold Rdiv; rewrite Rmult_assoc, Rinv_l by lra; lra).
  assert (W : forall a b, inwin s1 s2 M t a b -> inwin s1 s2 (fun a b => k * M a b) t a b).
  { intros a b [A [B C]]. apply inwin_scaled; auto. split; [exact A|]. split; [exact B|].
    assert (MM : min2 s1 s2 M <= M a b) by (unfold min2; assert (S := argmin2_spec s1 s2 M P1 P2); destruct S as [_ [_ [S _]]]; apply S; auto). nra. }
  destruct X as [[x1 B1] [[x2 B2] [[y3 B3] [[y4 B4] _]]]]. destruct X' as [_ [_ [_ [_ B5]]]].
  apply W, B5 in B1, B2, B3, B4.
  assert (Mo : forall a b, (a <= b)%Z -> IZR a / u / 2 <= IZR b / u / 2).
  { intros a b H. unfold Rdiv. apply Rmult_le_compat_r; [lra|]. apply Rmult_le_compat_r; [left; apply Rinv_0_lt_compat; auto|apply IZR_le; auto]. }
  split; apply Mo; lia.
Qed.
Print Assumptions C96_error_bars_grow_with_the_error.

Lemma gap1 n (h : Z -> R) : (forall k, (0 <= k < n)%Z -> 0 < h k) -> exists d, 0 < d /\ forall k, (0 <= k < n)%Z -> d <= h k.
Proof.
  destruct (Z_lt_le_dec n 0) as [L|L]; [intros _; exists 1; split; [lra|intros; lia]|]. revert n L.
  apply (natlike_ind (fun n => (forall k, (0 <= k < n)%Z -> 0 < h k) -> exists d, 0 < d /\ forall k, (0 <= k < n)%Z -> d <= h k)).
  - intros _. exists 1. split; [lra|intros; lia].
  - intros n Hn IH H. destruct IH as [d [D1 D2]]; [intros; apply H; lia|].
    exists (Rmin d (h n)). split; [apply Rmin_pos; [exact D1|apply H; lia]|]. intros k Hk.
    destruct (Z.eq_dec k n) as [->|N]; [apply Rmin_r|]. eapply Rle_trans; [apply Rmin_l|apply D2; lia].
Qed.
Lemma gap2 n m (h : Z -> Z -> R) : (forall k l, (0 <= k < n)%Z -> (0 <= l < m)%Z -> 0 < h k l) -> exists d, 0 < d /\ forall k l, (0 <= k < n)%Z -> (0 <= l < m)%Z -> d <= h k l.
Proof.
  intros H.
  assert (Q : forall a, exists d, 0 < d /\ ((0 <= a < n)%Z -> forall l, (0 <= l < m)%Z -> d <= h a l)).
  { intros a. destruct (Z_le_dec 0 a) as [A|A]; [destruct (Z_lt_dec a n) as [B|B]|]; [|exists 1; split; [lra|intros; lia]|exists 1; split; [lra|intros; lia]].
    destruct (gap1 m (h a)) as [d [D1 D2]]; [intros; apply H; lia|]. exists d. split; [exact D1|intros _; exact D2]. }
  clear H. destruct (Z_lt_le_dec n 0) as [L|L]; [exists 1; split; [lra|intros; lia]|]. revert n L Q.
  apply (natlike_ind (fun n => (forall a, exists d, 0 < d /\ ((0 <= a < n)%Z -> forall l, (0 <= l < m)%Z -> d <= h a l)) -> exists d, 0 < d /\ forall k l, (0 <= k < n)%Z -> (0 <= l < m)%Z -> d <= h k l)).
  - intros _. exists 1. split; [lra|intros; lia].
  - intros n Hn IH Q. destruct IH as [d [D1 D2]]. { intros a. destruct (Q a) as [d [A B]]. exists d. split; [exact A|]. intros; apply B; auto; lia. }
    destruct (Q n) as [d' [D1' D2']]. exists (Rmin d d'). split; [apply Rmin_pos; auto|]. intros k l Hk Hl.
    destruct (Z.eq_dec k n) as [->|N]; [eapply Rle_trans; [apply Rmin_r|apply D2'; lia]|]. eapply Rle_trans; [apply Rmin_l|apply D2; lia].
Qed.

(** error bars are quantised: for small errors they are exactly zero *)
Theorem C96_error_bars_vanish_for_small_errors :
  forall e im1 im2 us nthreads use_np zeromean nfitted mas mns allow_huge ny nx u s1 s2 t x y ex ey xv yv ups i j,
  shape im1 = [ny; nx] -> shape im2 = [ny; nx] -> (0 < ny)%Z -> (0 < nx)%Z -> size_ok e allow_huge ny nx ->
  explicit_grid us ny nx u s1 s2 -> one_sigma e t ->
  chi2_shift e im1 im2 (ErrScalar 1) us BWrap nthreads use_np zeromean nfitted false true true mas mns allow_huge =
    Ok [RNum x; RNum y; RNum ex; RNum ey; RMaps xv yv ups] ->
  (* the returned chi-squared array has a single minimum *)
  (0 <= i < s1)%Z -> (0 <= j < s2)%Z -> (forall a b, (0 <= a < s1)%Z -> (0 <= b < s2)%Z -> (a <> i \/ b <> j)%Z -> g2 ups i j < g2 ups a b) ->
  exists s0, 0 < s0 /\ forall s, 0 < Rabs s <= s0 ->
    chi2_shift e im1 im2 (ErrScalar s) us BWrap nthreads use_np zeromean nfitted false true false mas mns allow_huge = Ok [RNum x; RNum y; RNum 0; RNum 0].
Proof.
  intros e im1 im2 us nt np zm nf mas mns huge ny nx u s1 s2 t x y ex ey xv yv ups i j H1 H2 Hy Hx Hh Hg Ht HK Hi Hj HU.
  assert (G : exists d, 0 < d /\ forall a b, (0 <= a < s1)%Z -> (0 <= b < s2)%Z -> (a <> i \/ b <> j)%Z -> g2 ups i j + d <= g2 ups a b).
  { destruct (gap2 s1 s2 (fun a b => if ((a =? i) && (b =? j))%Z then 1 else g2 ups a b - g2 ups i j)) as [d [D1 D2]].
    { intros a b Ha Hb. destruct ((a =? i) && (b =? j))%Z eqn:E; [lra|]. assert (Q := HU a b Ha Hb). apply andb_false_iff in E. rewrite !Z.eqb_neq in E. specialize (Q E). lra. }
    exists d. split; [exact D1|]. intros a b Ha Hb N. specialize (D2 a b Ha Hb). cbv beta in D2. destruct ((a =? i) && (b =? j))%Z eqn:E; [|lra].
    apply andb_true_iff in E. rewrite !Z.eqb_eq in E. lia. }
  destruct G as [d [Dp HD]].
  assert (T0 : 0 < t) by (apply one_sigma_thr in Ht; tauto).
  exists (sqrt (d / t)). assert (DT : 0 < d / t) by (apply Rdiv_lt_0_compat; auto). split; [apply sqrt_lt_R0; exact DT|]. intros s [Sp Ss].
  assert (S0 : s <> 0) by (intros ->; rewrite Rabs_R0 in Sp; lra).
  destruct (err_pair e im1 im2 us 1 s nt np zm nf mas mns huge ny nx u s1 s2 t) as [M [x' [y' [yl [yh [xl [xh [yl' [yh' [xl' [xh' [xv' [yv' [ups' [_ [VU [Hu [P1 [P2 [_ [X [X' [KA [_ K']]]]]]]]]]]]]]]]]]]]]]]]; auto; try lra.
  rewrite HK in KA. injection KA as -> -> _ _ _ _ ->.
  assert (S2 : 0 < s ^ 2) by (simpl; rewrite Rmult_1_r; apply Rsqr_pos_lt; auto).
  assert (SD : s ^ 2 * t <= d).
  { rewrite <- (pow2_abs s). apply Rle_trans with (sqrt (d / t) ^ 2 * t).
    - apply Rmult_le_compat_r; [lra|]. apply pow_incr. lra.
    - simpl. rewrite Rmult_1_r, sqrt_sqrt by lra. right. field. lra. }
  assert (MIN : argmin2 s1 s2 M = (i, j)).
  { assert (A := argmin2_spec s1 s2 M P1 P2). destruct (argmin2 s1 s2 M) as [a b]. destruct A as [Aa [Ab [A _]]]. cbn [fst snd] in *.
    destruct (Z.eq_dec a i) as [->|N]; [destruct (Z.eq_dec b j) as [->|N]; [reflexivity|]|];
    (assert (Q := HU _ _ Aa Ab ltac:(auto)); rewrite !VU in Q by auto; specialize (A i j Hi Hj); lra). }
  assert (W : forall a b, inwin s1 s2 (fun a b => 1 ^ 2 / s ^ 2 * M a b) t a b -> a = i /\ b = j).
  { intros a b Q. apply inwin_scaled in Q; auto; [|apply Rdiv_lt_0_compat; lra]. destruct Q as [A [B Q]].
    unfold min2 in Q. rewrite MIN in Q. cbn [fst snd] in Q.
    assert (D : ~ (a <> i \/ b <> j)%Z); [|lia]. intros N. specialize (HD a b A B N). rewrite !VU in HD by auto.
    apply (Rmult_lt_compat_l (s ^ 2)) in Q; [|exact S2]. replace (s ^ 2 * (1 ^ 2 / s ^ 2 * (M a b - M i j))) with (M a b - M i j) in Q by (field; auto). lra. }
  destruct X' as [[x1 B1] [[x2 B2] [[y3 B3] [[y4 B4] _]]]].
  apply W in B1, B2, B3, B4.
  assert (EX : (xh' = xl' /\ yh' = yl')%Z) by lia. destruct EX as [-> ->]. rewrite K'. rewrite !Z.sub_diag.
  replace (IZR 0 / u / 2) with 0; [reflexivity|]. field. lra.
Qed.
Print Assumptions C96_error_bars_vanish_for_small_errors.


(** for an exact roll of an image that no shift reproduces, a small enough error makes both error bars exactly zero *)
Theorem C96_exact_roll_zero_error_bars :
  forall e im1 im2 u nthreads use_np zeromean nfitted mas mns allow_huge n dy dx t,
  is_roll im1 im2 n n dy dx -> (0 < u < n)%Z -> Z.odd n = true -> size_ok e allow_huge n n -> one_sigma e t ->
  no_real_symmetry n n (prep zeromean im1 n n) ->
  exists s0, 0 < s0 /\ forall s, 0 < Rabs s <= s0 ->
    chi2_shift e im1 im2 (ErrScalar s) (UInt u) BWrap nthreads use_np zeromean nfitted false true false mas mns allow_huge =
      Ok [RNum (IZR ((n - 1) / 2 - ((n - 1) / 2 - dx) mod n)); RNum (IZR ((n - 1) / 2 - ((n - 1) / 2 - dy) mod n)); RNum 0; RNum 0].
Proof.
  intros e im1 im2 u nt np zm nf mas mns huge n dy dx t Hr Hu Ho Hh Ht Hsym.
  assert (Hn : (0 < n)%Z) by lia. assert (Hu' : 0 < IZR u) by (apply IZR_lt; lia).
  assert (Hg : explicit_grid (UInt u) n n (IZR u) n n) by (cbn [explicit_grid]; destruct (Z.ltb_spec u n); [repeat split; lia|lia]).
  assert (Hr' := Hr). destruct Hr' as [H1 [H2 _]].
  destruct (err_pair e im1 im2 (UInt u) 1 1 nt np zm nf mas mns huge n n (IZR u) n n t) as [M [x [y [yl [yh [xl [xh [yl' [yh' [xl' [xh' [xv [yv [ups [MC [VU [_ [P1 [P2 [_ [_ [_ [KA _]]]]]]]]]]]]]]]]]]]]]]]; auto; try lra.
  destruct MC as [c [t1 [t2 [t3 [ym [xm [Em [EA MV]]]]]]]].
  destruct (C38_odd_square_exact e im1 im2 (ErrScalar 1) 1 u nt np zm nf true true mas mns huge n dy dx t) as [rest KR]; auto; try (right; split; [reflexivity|lra]).
  assert (EX : x = IZR ((n - 1) / 2 - ((n - 1) / 2 - dx) mod n) /\ y = IZR ((n - 1) / 2 - ((n - 1) / 2 - dy) mod n)).
  { rewrite KA in KR. injection KR as -> -> _. auto. }
  destruct EX as [EX EY]. rewrite <- EX, <- EY. clear KR EX EY.
  destruct (map_interp e im1 im2 (ErrScalar 1) 1 nt zm np huge n n c t1 t2 t3 H1 H2 Hn Hn Hh ltac:(right; split; [reflexivity|lra]) Em) as [Sc [Vc Ic]].
  assert (A := argmin2_spec n n (g2 c) Hn Hn). rewrite <- EA in A. destruct A as [A1 [A2 [A3 _]]]. cbn [fst snd] in *.
  assert (Hz : g2 c ym xm = 0).
  { assert (M0 : forall d, (((n - 1) / 2 - ((n - 1) / 2 - d) mod n - d) mod n = 0)%Z).
    { intros d. replace ((n - 1) / 2 - ((n - 1) / 2 - d) mod n - d)%Z with (((n - 1) / 2 - d) - ((n - 1) / 2 - d) mod n)%Z by lia. rewrite Zminus_mod, Zmod_mod, Z.sub_diag. apply Z.mod_0_l. lia. }
    assert (L := A3 (((n - 1) / 2 - dy) mod n)%Z (((n - 1) / 2 - dx) mod n)%Z ltac:(apply Z.mod_pos_bound; auto) ltac:(apply Z.mod_pos_bound; auto)).
    rewrite (Vc (((n - 1) / 2 - dy) mod n)%Z) in L by (apply Z.mod_pos_bound; auto).
    rewrite (chi2_of_roll_zero zm im1 im2 n n dy dx 1 Hr Hn Hn) in L by auto.
    assert (G : 0 <= g2 c ym xm) by (rewrite Vc by auto; apply sum2_nonneg; intros; apply pow2_ge_0). lra. }
  assert (HP : hits_pixel n u n) by (unfold hits_pixel; rewrite Ho; reflexivity).
  destruct (hits_node n u n ym ltac:(lia) Hn HP) as [i [Hi Ei]]. destruct (hits_node n u n xm ltac:(lia) Hn HP) as [j [Hj Ej]].
  assert (M0 : M i j = 0).
  { rewrite MV, Ei, Ej. unfold chi2_at. rewrite <- !minus_IZR. rewrite (tiR_ext _ _ (img2 (g2 c))).
    - rewrite tiR_int2 by auto. replace ((n - 1) / 2 - ((n - 1) / 2 - ym))%Z with ym by lia. replace ((n - 1) / 2 - ((n - 1) / 2 - xm))%Z with xm by lia.
      rewrite !Z.mod_small by auto. exact Hz.
    - intros z Hin. apply inb2' in Hin. destruct Hin as [k [l [-> _]]]. reflexivity. }
  assert (ZERO : forall a b, M a b <= 0 -> exists k l : Z, grid_shift n ym n (IZR u) a - IZR dy = IZR k * IZR n /\ grid_shift n xm n (IZR u) b - IZR dx = IZR l * IZR n).
  { intros a b L. rewrite MV in L. set (y' := grid_shift n ym n (IZR u) a) in *. set (x' := grid_shift n xm n (IZR u) b) in *.
    destruct (Ic y' x') as [Il _].
    assert (Q : chi2c n n (prep zm im1 n n) (prep zm im2 n n) 1 y' x' = 0) by (apply Rle_antisym; [lra|apply sum2_nonneg; intros; apply pow2_ge_0]).
    assert (Heq : forall k l, (0 <= k < n)%Z -> (0 <= l < n)%Z -> fshift n n (prep zm im1 n n) y' x' k l = prep zm im2 n n k l).
    { intros k l Hk Hl.
      assert (Z0 := sum2_nonneg_0 n n (fun i j => ((prep zm im2 n n i j - fshift n n (prep zm im1 n n) y' x' i j) / 1) ^ 2)
         ltac:(intros; apply pow2_ge_0) Q k l Hk Hl). cbv beta in Z0. simpl in Z0. rewrite Rmult_1_r in Z0. apply Rsqr_0_uniq in Z0. lra. }
    destruct (Hsym (y' - IZR dy) (x' - IZR dx)) as [k [l KL]].
    { intros i' j' Hi' Hj'. rewrite fshift_add_int, <- fshift_mod by auto. rewrite Heq by (apply Z.mod_pos_bound; auto).
      rewrite (prep_roll zm im1 im2 n n dy dx) by (auto; apply Z.mod_pos_bound; auto).
      rewrite !Zminus_mod_idemp_l. replace (i' + dy - dy)%Z with i' by lia. replace (j' + dx - dx)%Z with j' by lia. rewrite !Z.mod_small by auto. reflexivity. }
    exists k, l. exact KL. }
  assert (SAME : forall m a b k l d, (0 <= a < n)%Z -> (0 <= b < n)%Z -> grid_shift n m n (IZR u) a - IZR d = IZR k * IZR n -> grid_shift n m n (IZR u) b - IZR d = IZR l * IZR n -> a = b).
  { intros m a b k l d Ha Hb Ea Eb. unfold grid_shift in Ea, Eb.
    assert (D : (IZR b - IZR a) / IZR u = (IZR k - IZR l) * IZR n) by (unfold Rdiv in *; lra).
    assert (D2 : IZR (b - a) = IZR ((k - l) * n * u)).
    { rewrite minus_IZR, !mult_IZR, minus_IZR. rewrite <- D. field. lra. }
    apply eq_IZR in D2. replace ((k - l) * n * u)%Z with ((k - l) * u * n)%Z in D2 by ring. set (q := ((k - l) * u)%Z) in *. clearbody q. assert (q = 0)%Z by nia. subst q. lia. }
  apply (C96_error_bars_vanish_for_small_errors e im1 im2 (UInt u) nt np zm nf mas mns huge n n (IZR u) n n t x y _ _ xv yv ups i j H1 H2 Hn Hn Hh Hg Ht KA Hi Hj).
  intros a b Ha Hb N. rewrite !VU by auto. rewrite M0. apply Rnot_le_lt. intros L.
  destruct (ZERO a b L) as [k [l [K1 K2]]]. destruct (ZERO i j) as [k' [l' [K1' K2']]]; [lra|].
  assert (a = i) by (eapply SAME; eauto). assert (b = j) by (eapply SAME; eauto). lia.
Qed.
Print Assumptions C96_exact_roll_zero_error_bars.

(** the hypotheses are those of C38, met by a single bright pixel *)
Example C96_nonvacuous : is_roll delta5 delta5r 5 5 3 (-2) /\ no_real_symmetry 5 5 (prep false delta5 5 5) /\
  one_sigma (Env false (2 ^ 30) false (fun _ _ => NaN)) (159358435 / 100000000) /\ size_ok (Env false (2 ^ 30) false (fun _ _ => NaN)) false 5 5 /\
  exists s0, 0 < s0 /\ forall s, 0 < Rabs s <= s0 ->
    chi2_shift (Env false (2 ^ 30) false (fun _ _ => NaN)) delta5 delta5r (ErrScalar s) (UInt 3) BWrap 1 true false 2 false true false 100 3 false = Ok [RNum (-2); RNum (-2); RNum 0; RNum 0].
Proof.
  destruct C38_nonvacuous as [A [B [C [D [E F]]]]]. do 4 (split; [assumption|]).
  destruct (C96_exact_roll_zero_error_bars (Env false (2 ^ 30) false (fun _ _ => NaN)) delta5 delta5r 3 1 true false 2 100 3 false 5 3 (-2) _ A ltac:(lia) eq_refl D C B) as [s0 [P Q]].
  exists s0. split; [exact P|]. intros s Hs. rewrite (Q s Hs). rewrite E, F. reflexivity.
Qed.
