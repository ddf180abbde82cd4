(** Properties C37, C42, C43 (continued): every number chi2_shift returns, the documented delta-chi2 levels, verbose *)
From Coq Require Import ZArith Lia List Reals Lra Bool.
From Coquelicot Require Import Complex.
From Verif Require Import Base NDim DFT Kernel Py M_fast_ffts M_shift M_scale M_zoom M_downsample M_convolve M_correlate Arg M_chi2
  Spec L_shift L_scale L_zoom L_convolve Sum2 Spec2 L_correlate L_chi2 P_chi2map L_chi2shift L_fshift P_chi2shift P_chi2errors.
Import ListNotations.
Open Scope R_scope.

(** *** C37: the three terms *)
Theorem C37_each_term :
  forall e im1 im2 err nthreads zeromean use_np allow_huge ny nx,
  shape im1 = [ny; nx] -> shape im2 = [ny; nx] -> (0 < ny)%Z -> (0 < nx)%Z -> size_ok e allow_huge ny nx -> err_ok err ny nx ->
  let f1 := used_image zeromean err im1 ny nx in let f2 := used_image zeromean err im2 ny nx in let sg := sigma_of err in
  exists chi2 t1 t2 t3,
    chi2n_map e im1 im2 err BWrap nthreads zeromean use_np true false allow_huge = Ok (Chi2All chi2 t1 t2 t3) /\
    t1 = pixel_sum ny nx (fun i j => (f2 i j / sg i j) ^ 2) /\
    (forall k l, (0 <= k < ny)%Z -> (0 <= l < nx)%Z ->
       g2 t2 k l = -2 * pixel_sum ny nx (fun i j => f2 i j / sg i j ^ 2 *
            f1 ((i - ((ny - 1) / 2 - k)) mod ny)%Z ((j - ((nx - 1) / 2 - l)) mod nx)%Z)) /\
    match err with
    | ErrArr _ => exists a, t3 = T3array a /\ forall k l, (0 <= k < ny)%Z -> (0 <= l < nx)%Z ->
        g2 a k l = pixel_sum ny nx (fun i j => (f1 ((i - ((ny - 1) / 2 - k)) mod ny)%Z ((j - ((nx - 1) / 2 - l)) mod nx)%Z / sg i j) ^ 2)
    | _ => t3 = T3scalar (pixel_sum ny nx (fun i j => (f1 i j / sg i j) ^ 2))
    end.
Proof.
  intros e im1 im2 err nt zm np huge ny nx H1 H2 Hy Hx Hh He f1 f2 sg.
  destruct (chi2n_map_ok e im1 im2 err nt zm np true false huge ny nx H1 H2 Hy Hx He Hh ltac:(discriminate)) as [c [t1 [t2 [t3 [E [S1 [S2 [E1 V]]]]]]]].
  fold f1 f2 in E1, V. fold sg in E1, V.
  exists c, t1, t2, t3. split; [exact E|]. split; [exact E1|].
  split; [intros k l Hk Hl; exact (proj1 (V k l Hk Hl))|].
  assert (T : forall k l, (0 <= k < ny)%Z -> (0 <= l < nx)%Z -> match t3 with T3scalar r => r | T3array a => g2 a k l end =
     sum2 ny nx (fun i j => (f1 ((i - ((ny - 1) / 2 - k)) mod ny)%Z ((j - ((nx - 1) / 2 - l)) mod nx)%Z / sg i j) ^ 2)).
  { intros k l Hk Hl. destruct (V k l Hk Hl) as [A [B _]]. rewrite A, E1 in B. unfold chi2_of in B. change (pixel_sum ny nx) with (sum2 ny nx) in B.
    set (F := fun i j => f1 ((i - ((ny - 1) / 2 - k)) mod ny)%Z ((j - ((nx - 1) / 2 - l)) mod nx)%Z) in *.
    assert (Q : sum2 ny nx (fun i j => ((f2 i j - F i j) / sg i j) ^ 2) =
      sum2 ny nx (fun i j => (f2 i j / sg i j) ^ 2) + -2 * sum2 ny nx (fun i j => f2 i j / sg i j ^ 2 * F i j) +
      sum2 ny nx (fun i j => (F i j / sg i j) ^ 2)).
    { rewrite <- sum2_scal, <- !sum2_plus. apply sum2_ext. intros i j Hi Hj. field. apply (sigma_nz err ny nx); auto. }
    unfold F in Q. rewrite Q in B. clear Q. unfold F in B. clear F.
    match type of B with ?a + ?b + ?d = ?a + ?b + ?g => assert (d = g) by lra end. exact H. }
  assert (Sc : forall r, t3 = T3scalar r -> r = pixel_sum ny nx (fun i j => (f1 i j / sg i j) ^ 2) \/ exists er, err = ErrArr er).
  { intros r ->. destruct err as [|s|er]; [left|left|right; eauto].
    all: rewrite (T 0%Z 0%Z) by lia; change (pixel_sum ny nx) with (sum2 ny nx).
    all: apply (sum2_shift ny nx (fun i j => (f1 i j / sg 0%Z 0%Z) ^ 2) (- ((ny - 1) / 2 - 0)) (- ((nx - 1) / 2 - 0))); auto. }
  assert (K : match err with ErrArr _ => exists a, t3 = T3array a | _ => exists r, t3 = T3scalar r end).
  { revert E. unfold chi2n_map. destruct (negb _); [discriminate|]. destruct err as [|s|er].
    - match goal with |- bind ?x _ = _ -> _ => destruct x; [cbn [bind]|discriminate] end. intros Q; injection Q; intros; subst; eauto.
    - destruct (Req_EM_T s 0); [discriminate|].
      match goal with |- bind ?x _ = _ -> _ => destruct x; [cbn [bind]|discriminate] end. intros Q; injection Q; intros; subst; eauto.
    - destruct (negb _); [discriminate|].
      match goal with |- bind ?x _ = _ -> _ => destruct x; [cbn [bind]|discriminate] end.
      match goal with |- bind ?x _ = _ -> _ => destruct x; [cbn [bind]|discriminate] end. intros Q; injection Q; intros; subst; eauto. }
  destruct err as [|s|er].
  - destruct K as [r K]. destruct (Sc r K) as [<-|[er B]]; [exact K|discriminate].
  - destruct K as [r K]. destruct (Sc r K) as [<-|[er B]]; [exact K|discriminate].
  - destruct K as [a K]. exists a. split; [exact K|]. intros k l Hk Hl. assert (Q := T k l Hk Hl). rewrite K in Q. exact Q.
Qed.
Print Assumptions C37_each_term.

(** *** C42: the delta-chi2 level for nsigma sigma *)
(** scipy's value below 8 sigma; a power law above, and everywhere without scipy *)
Theorem C42_level_is_documented :
  forall e (map0 : arr R) zoomfactor nsigma nfitted ny nx,
  shape map0 = [ny; nx] -> (0 < ny)%Z -> (0 < nx)%Z -> 0 < zoomfactor ->
  (e_scipy e = true -> nsigma < 8 ->
     match e_ppf e nsigma nfitted with
     | Fin t => if Rlt_dec 0 t then exists r, chi2map_to_errors e map0 zoomfactor nsigma nfitted = Ok r
                               else chi2map_to_errors e map0 zoomfactor nsigma nfitted = Raise ValueError
     | NaN => chi2map_to_errors e map0 zoomfactor nsigma nfitted = Raise ValueError
     end /\ sigma_to_chi2 e nsigma nfitted = Ok (e_ppf e nsigma nfitted)) /\
  ((e_scipy e = true -> 8 <= nsigma) -> 0 < nsigma ->
     sigma_to_chi2 e nsigma nfitted = Ok (Fin (159358435 / 100000000 * Rpower nsigma (180468278 / 100000000))) /\
     exists r, chi2map_to_errors e map0 zoomfactor nsigma nfitted = Ok r) /\
  (e_scipy e = false -> chi2map_to_errors e map0 zoomfactor 0 nfitted = Raise ValueError) /\
  (e_scipy e = false -> nsigma < 0 -> chi2map_to_errors e map0 zoomfactor nsigma nfitted = Raise TypeError).
Proof.
  intros e map0 zf ns nf ny nx Hs Hy Hx Hz. split; [|split; [|split]].
  - intros Es Hn. assert (L : sigma_to_chi2 e ns nf = Ok (e_ppf e ns nf)).
    { unfold sigma_to_chi2. rewrite Es. destruct (Rlt_dec ns 8); [reflexivity|lra]. }
    split; [|exact L]. destruct (e_ppf e ns nf) as [t|] eqn:Et.
    + destruct (Rlt_dec 0 t) as [Ht|Ht].
      * destruct (errors_ok e map0 zf ns nf ny nx t Hs Hy Hx Hz L Ht) as [a [b [c [d [_ Q]]]]]. eexists; exact Q.
      * apply (C42_no_level_raises e map0 zf ns nf ny nx (Fin t)); auto; lra.
    + apply (C42_no_level_raises e map0 zf ns nf ny nx NaN); auto; lra.
  - intros Es Hn. set (t := 159358435 / 100000000 * Rpower ns (180468278 / 100000000)).
    assert (Ht : 0 < t) by (unfold t, Rpower; apply Rmult_lt_0_compat; [lra|apply exp_pos]).
    assert (L : sigma_to_chi2 e ns nf = Ok (Fin t)).
    { unfold sigma_to_chi2, powlaw. destruct (e_scipy e).
      - specialize (Es eq_refl). destruct (Rlt_dec ns 8); [lra|]. destruct (Req_EM_T ns 0); [lra|reflexivity].
      - destruct (Rlt_dec ns 0); [lra|]. destruct (Req_EM_T ns 0); [lra|reflexivity]. }
    split; [exact L|]. destruct (errors_ok e map0 zf ns nf ny nx t Hs Hy Hx Hz L Ht) as [a [b [c [d [_ Q]]]]]. eexists; exact Q.
  - intros Es. apply (C42_no_level_raises e map0 zf 0 nf ny nx (Fin 0)); auto; try lra.
    unfold sigma_to_chi2, powlaw. rewrite Es. destruct (Rlt_dec 0 0); [lra|]. destruct (Req_EM_T 0 0); [reflexivity|lra].
  - intros Es Hn. unfold chi2map_to_errors. rewrite Hs. destruct (Req_EM_T zf 0); [lra|].
    destruct (Z.leb_spec ny 0); [lia|]. destruct (Z.leb_spec nx 0); [lia|]. cbn [orb].
    unfold sigma_to_chi2. rewrite Es. destruct (Rlt_dec ns 0); [reflexivity|lra].
Qed.
Print Assumptions C42_level_is_documented.

(** *** C43: every number in the returned list *)
(** factor u and window s1 x s2 of the final search: from the explicit factor, or automatic from the region of the coarse map
    within the max_nsig level of its minimum *)
Definition final_grid (e : env) (us : usarg) (ny nx : Z) (map0 : arr R) (ym xm : Z) (mas : Z) (mns nfitted : R) (u : R) (s1 s2 : Z) : Prop :=
  match us with
  | UAuto => s1 = mas /\ s2 = mas /\ exists size, (1 <= size)%Z /\ u = Rmax 1 (IZR mas / 2 / IZR size) /\
      is_region_size (fun y x => match (if e_scipy e then e_ppf e mns nfitted else Fin (26088233328527037 / 10000000000000000)) with
                               | Fin lv => near_min ny nx (g2 map0) ym xm lv y x | NaN => False end) size
  | _ => explicit_grid us ny nx u s1 s2
  end.
Definition grid_given (us : usarg) (ny nx mas : Z) : Prop :=
  match us with UAuto => (1 <= mas)%Z | _ => exists u s1 s2, explicit_grid us ny nx u s1 s2 end.

Lemma final_window e us ny nx (c : arr R) ym xm mas mns nf : (0 < ny)%Z -> (0 < nx)%Z -> grid_given us ny nx mas ->
  is_argmin2 ny nx (g2 c) (ym, xm) ->
  exists u s1 s2, window e us ny nx (g2 c) mas mns nf = Ok (u, [s1; s2]) /\ final_grid e us ny nx c ym xm mas mns nf u s1 s2 /\
    0 < u /\ (0 < s1)%Z /\ (0 < s2)%Z.
Proof.
  intros Hy Hx Hg Fa.
  assert (Expl : us <> UAuto -> exists u s1 s2, window e us ny nx (g2 c) mas mns nf = Ok (u, [s1; s2]) /\ explicit_grid us ny nx u s1 s2 /\ 0 < u /\ (0 < s1)%Z /\ (0 < s2)%Z).
  { intros Hne. assert (Hg' : exists u s1 s2, explicit_grid us ny nx u s1 s2) by (destruct us; [congruence|exact Hg|exact Hg]).
    destruct Hg' as [u [s1 [s2 G]]]. exists u, s1, s2.
    destruct (explicit_window_ok e us ny nx u s1 s2 (g2 c) mas mns nf Hy Hx G) as [W [W1 [W2 W3]]]. auto. }
  destruct us as [|k|r].
  2:{ destruct Expl as [u [s1 [s2 G]]]; [discriminate|]. exists u, s1, s2. exact G. }
  2:{ destruct Expl as [u [s1 [s2 G]]]; [discriminate|]. exists u, s1, s2. exact G. }
  clear Expl. cbn [grid_given] in Hg.
  set (size := auto_size e ny nx (g2 c) mns nf).
  assert (Hsz := auto_size_spec e ny nx (g2 c) mns nf). fold size in Hsz.
  assert (Hs1 : (1 <= size)%Z) by (destruct Hsz as [[_ ->]|[G _]]; [lia|auto]).
  assert (Hsp : 1 <= IZR size) by (apply IZR_le; auto).
  assert (Hmp : 1 <= IZR mas) by (apply IZR_le; auto).
  set (u := Rmax 1 (IZR mas / 2 / IZR size)).
  assert (Hu : 1 <= u) by apply Rmax_l.
  exists u, mas, mas. split.
  { unfold window, auto_factor. fold size. rewrite pydiv_ok by lra. cbn [bind]. f_equal. f_equal. unfold u.
    destruct (Rlt_dec (IZR mas / 2 / IZR size) 1); [rewrite Rmax_left by lra|rewrite Rmax_right by lra]; reflexivity. }
  split; [|split; [lra|lia]].
  split; [reflexivity|]. split; [reflexivity|]. exists size. split; [exact Hs1|]. split; [reflexivity|].
  assert (Em : min2 ny nx (g2 c) = g2 c ym xm).
  { unfold min2. rewrite (is_argmin2_unique ny nx (g2 c) _ (ym, xm) (argmin2_spec ny nx (g2 c) Hy Hx) Fa). reflexivity. }
  assert (W' : forall y x, (match (if e_scipy e then e_ppf e mns nf else Fin (26088233328527037 / 10000000000000000)) with
                             | Fin lv => near_min ny nx (g2 c) ym xm lv y x | NaN => False end) <->
     ((0 <= y < ny)%Z /\ (0 <= x < nx)%Z /\ ltn (g2 c y x - min2 ny nx (g2 c)) (m_auto e mns nf) = true)).
  { intros y0 x0. unfold m_auto. destruct (if e_scipy e then _ else _) as [lv|]; cbn [ltn]; [|intuition discriminate].
    unfold near_min. rewrite Em. destruct (Rlt_dec (g2 c y0 x0 - g2 c ym xm) lv); intuition (try lra; try discriminate). }
  destruct Hsz as [[A B]|[A [B [a [b [a' [b' [D1 [D2 D3]]]]]]]]].
  - left. split; [|exact B]. intros y0 x0 y1 x1 P Q. apply A; apply W'; auto.
  - right. split; [exact A|]. split; [intros y0 x0 y1 x1 P Q; apply B; apply W'; auto|].
    exists a, b, a', b'. split; [apply W'; auto|]. split; [apply W'; auto|auto].
Qed.

Theorem C43_full_result :
  forall e im1 im2 err us nthreads use_np zeromean nfitted (ret_err ret_arr : bool) mas mns allow_huge ny nx t,
  shape im1 = [ny; nx] -> shape im2 = [ny; nx] -> (0 < ny)%Z -> (0 < nx)%Z -> err_ok err ny nx -> size_ok e allow_huge ny nx ->
  grid_given us ny nx mas -> one_sigma e t ->
  exists map0 t1 t2 t3 ym xm u s1 s2 xv yv ups i j xlow xhigh ylow yhigh,
    (* coarse map, and its minimum *)
    chi2n_map e im1 im2 err BWrap nthreads zeromean use_np true false allow_huge = Ok (Chi2All map0 t1 t2 t3) /\
    is_argmin2 ny nx (g2 map0) (ym, xm) /\
    (* fine grid *)
    final_grid e us ny nx map0 ym xm mas mns nfitted u s1 s2 /\
    shape xv = [s1; s2] /\ shape yv = [s1; s2] /\ shape ups = [s1; s2] /\
    (forall a b, (0 <= a < s1)%Z -> (0 <= b < s2)%Z ->
       g2 xv a b = - grid_shift nx xm s2 u b /\ g2 yv a b = - grid_shift ny ym s1 u a /\
       g2 ups a b = chi2_at ny nx map0 (grid_shift ny ym s1 u a) (grid_shift nx xm s2 u b)) /\
    is_argmin2 s1 s2 (g2 ups) (i, j) /\
    (* error bars: those of the fine map, 1 sigma, 2 fitted parameters, whatever nfitted is *)
    chi2map_to_errors e ups u 1 2 = Ok (xlow, xhigh, ylow, yhigh) /\
    chi2_shift e im1 im2 err us BWrap nthreads use_np zeromean nfitted false ret_err ret_arr mas mns allow_huge =
      Ok ([RNum (grid_shift nx xm s2 u j); RNum (grid_shift ny ym s1 u i)] ++
          (if ret_err then [RNum ((xlow + xhigh) / 2); RNum ((ylow + yhigh) / 2)] else []) ++
          (if ret_arr then [RMaps xv yv ups] else [])).
Proof.
  intros e im1 im2 err us nt np zm nf re rc mas mns huge ny nx t H1 H2 Hy Hx He Hh Hg Ht.
  destruct (chi2n_map_ok e im1 im2 err nt zm np true false huge ny nx H1 H2 Hy Hx He Hh ltac:(discriminate)) as [c [t1 [t2 [t3 [E [S1 _]]]]]].
  assert (Sa := argmin2_spec ny nx (g2 c) Hy Hx). destruct (argmin2 ny nx (g2 c)) as [ym xm] eqn:Eam.
  destruct (final_window e us ny nx c ym xm mas mns nf Hy Hx Hg Sa) as [u [s1 [s2 [W [FG [W1 [W2 W3]]]]]]].
  apply one_sigma_thr in Ht. destruct Ht as [Ht Ht0].
  assert (K := chi2_shift_ok e im1 im2 err us BWrap nt np zm nf re rc mas mns huge ny nx c t1 t2 t3 u s1 s2 t H1 Hy Hx E S1 W W1 W2 W3 Ht Ht0).
  rewrite Eam in K. cbv zeta in K.
  destruct K as [ups [i [j [ylo [yhi [xlo [xhi [Ea [Su [Vu [X [xv [yv [Sx [Sy [Vx K]]]]]]]]]]]]]]]].
  set (M := fun i j => trig_interpR [ny; nx] (get c) [grid_at (zcen ny ym) u s1 i; grid_at (zcen nx xm) u s2 j]) in *.
  assert (Eu : argmin2 s1 s2 (g2 ups) = (i, j)) by (rewrite Ea; apply argmin2_ext; auto).
  destruct (errors_ok e ups u 1 2 s1 s2 t Su W2 W3 W1 Ht Ht0) as [ylo' [yhi' [xlo' [xhi' [X' Er]]]]].
  assert (XX : extent s1 s2 M t ylo' yhi' xlo' xhi').
  { assert (Hmin : min2 s1 s2 (g2 ups) = min2 s1 s2 M).
    { unfold min2. rewrite Eu, <- Ea. cbn [fst snd]. assert (Sb := argmin2_spec s1 s2 (g2 ups) W2 W3). rewrite Eu in Sb.
      destruct Sb as [R1 [R2 _]]. apply Vu; auto. }
    assert (WW : forall y x, inwin s1 s2 (g2 ups) t y x <-> inwin s1 s2 M t y x).
    { intros y x. unfold inwin. rewrite Hmin. split; intros [A [B D]]; (split; [auto|split; [auto|]]); rewrite Vu in * by auto; auto. }
    destruct X' as [[x1 B1] [[x2 B2] [[y3 B3] [[y4 B4] B5]]]].
    split; [exists x1; apply WW; auto|]. split; [exists x2; apply WW; auto|]. split; [exists y3; apply WW; auto|]. split; [exists y4; apply WW; auto|].
    intros y x Hin. apply B5. apply WW; auto. }
  destruct (extent_unique _ _ _ _ _ _ _ _ _ _ _ _ XX X) as [-> [-> [-> ->]]].
  rewrite Eu in Er. cbn [fst snd] in Er.
  assert (Sb := argmin2_spec s1 s2 (g2 ups) W2 W3). rewrite Eu in Sb.
  exists c, t1, t2, t3, ym, xm, u, s1, s2, xv, yv, ups, i, j, (IZR (j - xlo) / u), (IZR (xhi - j) / u), (IZR (i - ylo) / u), (IZR (yhi - i) / u).
  split; [exact E|]. split; [exact Sa|]. split; [exact FG|]. split; [exact Sx|]. split; [exact Sy|]. split; [exact Su|].
  split.
  { intros a b Ha Hb. destruct (Vx a b Ha Hb) as [Q1 Q2]. rewrite <- !node_grid. split; [exact Q1|]. split; [exact Q2|].
    rewrite Vu by auto. unfold M, chi2_at, node. rewrite <- !cen_int. f_equal. f_equal; [|f_equal]; ring. }
  split; [exact Sb|]. split; [exact Er|]. rewrite K, !node_grid.
  assert (E3 : (IZR (j - xlo) / u + IZR (xhi - j) / u) / 2 = IZR (xhi - xlo) / u / 2) by (rewrite !minus_IZR; field; lra).
  assert (E4 : (IZR (i - ylo) / u + IZR (yhi - i) / u) / 2 = IZR (yhi - ylo) / u / 2) by (rewrite !minus_IZR; field; lra).
  rewrite E3, E4. reflexivity.
Qed.
Print Assumptions C43_full_result.

(** without a usable 1-sigma level the call fails, even when the error bars are not asked for *)
Theorem C43_no_level_raises :
  forall e im1 im2 err us nthreads use_np zeromean nfitted verbose ret_err ret_arr mas mns allow_huge ny nx,
  shape im1 = [ny; nx] -> shape im2 = [ny; nx] -> (0 < ny)%Z -> (0 < nx)%Z -> err_ok err ny nx -> size_ok e allow_huge ny nx ->
  grid_given us ny nx mas -> e_scipy e = true -> match e_ppf e 1 2 with Fin t => t <= 0 | NaN => True end ->
  chi2_shift e im1 im2 err us BWrap nthreads use_np zeromean nfitted verbose ret_err ret_arr mas mns allow_huge = Raise ValueError.
Proof.
  intros e im1 im2 err us nt np zm nf vb re rc mas mns huge ny nx H1 H2 Hy Hx He Hh Hg Es Hl.
  destruct (chi2n_map_ok e im1 im2 err nt zm np true false huge ny nx H1 H2 Hy Hx He Hh ltac:(discriminate)) as [c [t1 [t2 [t3 [E [S1 _]]]]]].
  assert (Sa := argmin2_spec ny nx (g2 c) Hy Hx). destruct (argmin2 ny nx (g2 c)) as [ym xm] eqn:Eam.
  destruct (final_window e us ny nx c ym xm mas mns nf Hy Hx Hg Sa) as [u [s1 [s2 [W [_ [W1 [W2 W3]]]]]]].
  unfold chi2_shift, chi2_shift_tail. rewrite E. cbn [bind]. rewrite H1, Eam.
  assert (Hwin : (match us with
      | UAuto => let! _ := verbose_check vb ny nx (g2 c) in
                 let! u := auto_factor mas (auto_size e ny nx (g2 c) mns nf) in
                 Ok (u, [mas; mas])
      | u => explicit_window u ny nx
      end) = Raise ValueError \/ (match us with
      | UAuto => let! _ := verbose_check vb ny nx (g2 c) in
                 let! u := auto_factor mas (auto_size e ny nx (g2 c) mns nf) in
                 Ok (u, [mas; mas])
      | u => explicit_window u ny nx
      end) = Ok (u, [s1; s2])).
  { destruct us; [|right; exact W|right; exact W]. unfold verbose_check. destruct (_ && _); [left; reflexivity|right; exact W]. }
  destruct Hwin as [Hwin|Hwin]; rewrite Hwin; cbn [bind]; [reflexivity|].
  destruct (zoom2_ok (e_fftw e) (RtoCa c) ny nx (zcen ny ym) (zcen nx xm) u (Some [s1; s2]) s1 s2 1 false true true)
    as [xs [r [Z1 [Z2 [Z3 Z4]]]]]; auto; try lra.
  match goal with |- bind ?z _ = _ => assert (Hz : z = Ok (with_xouts true xs (pick_real true r))) end.
  { unfold zoomnd. unfold ndim. change (shape (RtoCa c)) with (shape c). rewrite S1.
    cbn [length Nat.ltb Nat.leb Nat.eqb negb andb zipw].
    rewrite <- Z1. unfold zcen. rewrite !minus_IZR. reflexivity. }
  rewrite Hz. cbn [bind with_xouts pick_real].
  destruct (Z.leb_spec s1 0); [lia|]. destruct (Z.leb_spec s2 0); [lia|]. cbn [orb].
  unfold verbose_check. destruct (_ && _); [reflexivity|]. cbn [bind].
  rewrite (C42_no_level_raises e (amap Re r) u 1 2 s1 s2 (e_ppf e 1 2)); auto; try lra.
  unfold sigma_to_chi2. rewrite Es. destruct (Rlt_dec 1 8); [reflexivity|lra].
Qed.
Print Assumptions C43_no_level_raises.

(** verbose only prints, except that the print fails when a printed map is constant *)
Definition not_flat (ny nx : Z) (m : Z -> Z -> R) : Prop :=
  exists y x y' x', (0 <= y < ny)%Z /\ (0 <= x < nx)%Z /\ (0 <= y' < ny)%Z /\ (0 <= x' < nx)%Z /\ m y x <> m y' x'.

Lemma verbose_check_spec ny nx m : (0 < ny)%Z -> (0 < nx)%Z ->
  (not_flat ny nx m -> verbose_check true ny nx m = Ok tt) /\ (~ not_flat ny nx m -> verbose_check true ny nx m = Raise ValueError).
Proof.
  intros Hy Hx. unfold verbose_check. cbn [andb].
  destruct (argmin2 ny nx m) as [ym xm] eqn:E. assert (S := argmin2_spec ny nx m Hy Hx). rewrite E in S.
  destruct S as [S1 [S2 [S3 _]]]. cbn [fst snd] in *.
  assert (Em : min2 ny nx m = m ym xm) by (unfold min2; rewrite E; reflexivity).
  destruct (existsb _ _) eqn:Ex; cbn [negb].
  - split; [reflexivity|]. intros H. exfalso. apply H. apply existsb_exists in Ex. destruct Ex as [[y x] [I D]]. apply pixels_In in I.
    cbn [fst snd] in D. destruct (Rlt_dec 0 (m y x - min2 ny nx m)) as [D'|D']; [|discriminate]. rewrite Em in D'.
    exists y, x, ym, xm. repeat split; try lia; tauto || lra.
  - split; [|reflexivity]. intros [y [x [y' [x' [A [B [A' [B' D]]]]]]]]. exfalso. apply D.
    assert (F : forall a b, (0 <= a < ny)%Z -> (0 <= b < nx)%Z -> m a b = m ym xm).
    { intros a b Ha Hb. assert (Q := existsb_exists (fun p => if Rlt_dec 0 (m (fst p) (snd p) - min2 ny nx m) then true else false) (pixels ny nx)).
      assert (L := S3 a b Ha Hb). destruct (Rlt_dec 0 (m a b - min2 ny nx m)) as [D'|D'].
      - exfalso. assert (C : existsb (fun p => if Rlt_dec 0 (m (fst p) (snd p) - min2 ny nx m) then true else false) (pixels ny nx) = true).
        { apply Q. exists (a, b). split; [apply pixels_In; auto|]. cbn [fst snd]. destruct (Rlt_dec 0 (m a b - min2 ny nx m)); [reflexivity|contradiction]. }
        rewrite Ex in C. discriminate.
      - rewrite Em in D'. lra. }
    rewrite (F y x), (F y' x') by auto. reflexivity.
Qed.

Theorem C43_verbose :
  forall e im1 im2 err us nthreads use_np zeromean nfitted (ret_err : bool) mas mns allow_huge ny nx t,
  shape im1 = [ny; nx] -> shape im2 = [ny; nx] -> (0 < ny)%Z -> (0 < nx)%Z -> err_ok err ny nx -> size_ok e allow_huge ny nx ->
  grid_given us ny nx mas -> one_sigma e t ->
  exists map0 t1 t2 t3 ups xv yv s1 s2 rest,
    chi2n_map e im1 im2 err BWrap nthreads zeromean use_np true false allow_huge = Ok (Chi2All map0 t1 t2 t3) /\
    chi2_shift e im1 im2 err us BWrap nthreads use_np zeromean nfitted false ret_err true mas mns allow_huge = Ok (rest ++ [RMaps xv yv ups]) /\
    shape ups = [s1; s2] /\
    (not_flat s1 s2 (g2 ups) -> (us = UAuto -> not_flat ny nx (g2 map0)) -> forall ret_arr : bool,
       chi2_shift e im1 im2 err us BWrap nthreads use_np zeromean nfitted true ret_err ret_arr mas mns allow_huge =
       chi2_shift e im1 im2 err us BWrap nthreads use_np zeromean nfitted false ret_err ret_arr mas mns allow_huge) /\
    (~ not_flat s1 s2 (g2 ups) \/ (us = UAuto /\ ~ not_flat ny nx (g2 map0)) -> forall ret_arr : bool,
       chi2_shift e im1 im2 err us BWrap nthreads use_np zeromean nfitted true ret_err ret_arr mas mns allow_huge = Raise ValueError).
Proof.
  intros e im1 im2 err us nt np zm nf re mas mns huge ny nx t H1 H2 Hy Hx He Hh Hg Ht.
  destruct (C43_full_result e im1 im2 err us nt np zm nf re true mas mns huge ny nx t H1 H2 Hy Hx He Hh Hg Ht)
    as [c [t1 [t2 [t3 [ym [xm [u [s1 [s2 [xv [yv [ups [i [j [xl [xh [yl [yh [E [Sa [FG [Sx [Sy [Su [V [Sb [Er K]]]]]]]]]]]]]]]]]]]]]]]]]]].
  assert (S1 : shape c = [ny; nx]).
  { destruct (chi2n_map_ok e im1 im2 err nt zm np true false huge ny nx H1 H2 Hy Hx He Hh ltac:(discriminate)) as [c' [t1' [t2' [t3' [E' [S1 _]]]]]].
    rewrite E in E'. injection E' as -> _ _ _. exact S1. }
  assert (Eam := is_argmin2_unique ny nx (g2 c) _ (ym, xm) (argmin2_spec ny nx (g2 c) Hy Hx) Sa).
  destruct (final_window e us ny nx c ym xm mas mns nf Hy Hx Hg Sa) as [u' [s1' [s2' [W [FG' [W1 [W2 W3]]]]]]].
  (* the call, unfolded *)
  assert (U : forall vb rc, chi2_shift e im1 im2 err us BWrap nt np zm nf vb re rc mas mns huge =
    let! _ := match us with UAuto => verbose_check vb ny nx (g2 c) | _ => Ok tt end in
    let! win := window e us ny nx (g2 c) mas mns nf in
    let '(usfac, outshape) := win in
    let! z := zoomnd (e_fftw e) (RtoCa c) [IZR ym - cen ny; IZR xm - cen nx] (fun x => x) usfac (Some outshape) 1 false true true in
    match z, outshape with
    | (Some xouts, RealArr chi2_ups), [s1; s2] =>
      if (s1 <=? 0)%Z || (s2 <=? 0)%Z then Raise ValueError else
      let! _ := verbose_check vb s1 s2 (g2 chi2_ups) in
      let! errs := chi2map_to_errors e chi2_ups usfac 1 2 in
      let '(exl, exh, eyl, eyh) := errs in
      let '(i, j) := argmin2 s1 s2 (g2 chi2_ups) in
      let yshift_corr := get xouts [0%Z; i; j] - cen ny in
      let xshift_corr := get xouts [1%Z; i; j] - cen nx in
      Ok ([RNum (- xshift_corr); RNum (- yshift_corr)] ++
          (if re then [RNum ((exl + exh) / 2); RNum ((eyl + eyh) / 2)] else []) ++
          (if rc
           then [RMaps (mk2 s1 s2 (fun i j => get xouts [1%Z; i; j] - cen nx))
                       (mk2 s1 s2 (fun i j => get xouts [0%Z; i; j] - cen ny)) chi2_ups]
           else []))
    | _, _ => Raise Unmodelled
    end).
  { intros vb rc. unfold chi2_shift, chi2_shift_tail. rewrite E. cbn [bind]. rewrite H1, Eam. destruct us; [|reflexivity|reflexivity].
    unfold window. destruct (verbose_check vb ny nx (g2 c)); [|reflexivity]. cbn [bind].
    destruct (auto_factor mas (auto_size e ny nx (g2 c) mns nf)); reflexivity. }
  rewrite W in U. cbn [bind] in U.
  destruct (zoomnd (e_fftw e) (RtoCa c) [IZR ym - cen ny; IZR xm - cen nx] (fun x => x) u' (Some [s1'; s2']) 1 false true true) as [z|ex] eqn:Ez.
  2:{ exfalso. rewrite U in K. destruct us; discriminate K. }
  cbn [bind] in U. destruct z as [[xouts|] [ups'|]]; try (exfalso; rewrite U in K; destruct us; discriminate K).
  destruct ((s1' <=? 0)%Z || (s2' <=? 0)%Z); [exfalso; rewrite U in K; destruct us; discriminate K|].
  destruct (chi2map_to_errors e ups' u' 1 2) as [[[[a b] a'] b']|ex] eqn:Ee.
  2:{ exfalso. rewrite U in K. destruct us; discriminate K. }
  cbn [bind] in U. destruct (argmin2 s1' s2' (g2 ups')) as [i' j'] eqn:Ei'.
  assert (K' := K). rewrite U in K'.
  assert (Z0 : (match us with UAuto => verbose_check false ny nx (g2 c) | _ => Ok tt end) = Ok tt) by (destruct us; reflexivity).
  rewrite Z0 in K'. unfold verbose_check in K'. cbn [andb bind] in K'. clear Z0.
  assert (Qs : xv = mk2 s1' s2' (fun i j => get xouts [1%Z; i; j] - cen nx) /\ ups = ups').
  { destruct re; cbn [app] in K'; injection K'; intros; split; congruence. }
  destruct Qs as [Qx ->]. assert (Qd : s1 = s1' /\ s2 = s2') by (rewrite Qx in Sx; cbn [mk2 shape] in Sx; injection Sx; auto). destruct Qd as [-> ->].
  destruct (verbose_check_spec s1' s2' (g2 ups') W2 W3) as [P1 P2]. destruct (verbose_check_spec ny nx (g2 c) Hy Hx) as [P3 P4].
  exists c, t1, t2, t3, ups', xv, yv, s1', s2', ([RNum (grid_shift nx xm s2' u j); RNum (grid_shift ny ym s1' u i)] ++
          (if re then [RNum ((xl + xh) / 2); RNum ((yl + yh) / 2)] else [])).
  split; [exact E|]. split; [rewrite K, app_assoc; reflexivity|]. split; [exact Su|]. split.
  - intros N1 N2 rc. rewrite !U, P1 by auto. destruct us; cbn [bind]; [|reflexivity|reflexivity]. rewrite P3 by auto. reflexivity.
  - intros N rc. rewrite U. destruct N as [N|[-> N]].
    + destruct us; cbn [bind]; try (rewrite P2 by auto; reflexivity). destruct (verbose_check true ny nx (g2 c)) eqn:Ev; cbn [bind].
      * rewrite P2 by auto. reflexivity.
      * unfold verbose_check in Ev. destruct (true && _); [|discriminate]. congruence.
    + rewrite P4 by auto. reflexivity.
Qed.
Print Assumptions C43_verbose.

Example C43_full_nonvacuous : grid_given UAuto 5 4 512 /\ grid_given (UInt 3) 5 4 512 /\ grid_given (UFloat (7 / 2)) 5 4 512 /\
  not_flat 5 5 (fun y x => IZR (y + x)) /\ ~ not_flat 5 5 (fun y x => 3).
Proof.
  split; [simpl; lia|]. split; [exists 3, 5%Z, 4%Z; simpl; repeat split; lia|]. split; [exists (7 / 2), 5%Z, 4%Z; simpl; repeat split; lra|].
  split; [exists 0%Z, 0%Z, 1%Z, 0%Z; repeat split; try lia; apply IZR_neq; lia|]. intros [y [x [y' [x' H]]]]. apply H; reflexivity.
Qed.
