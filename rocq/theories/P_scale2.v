(** More about C12 (equally spaced data_x) and C13: coordinates given as a two-row array, in which the first row belongs to axis 0 *)
From Coq Require Import ZArith Lia List Reals Lra Bool.
From Coquelicot Require Import Complex.
From Verif Require Import Base NDim DFT Kernel Py M_fast_ffts M_shift M_scale Spec L_shift L_scale P_scale.
Import ListNotations.
Open Scope R_scope.

Theorem C13_two_row_array_form_agrees :
  forall env (data : arr C) ny nx (a : arr R) (ys xs : list R) nt np rr,
  shape data = [ny; nx] -> (0 < ny)%Z -> (0 < nx)%Z ->
  length ys = length xs -> shape a = [2%Z; Z.of_nat (length xs)] ->
  (forall i, (i < length xs)%nat -> get a [0%Z; Z.of_nat i] = nth i ys 0 /\ get a [1%Z; Z.of_nat i] = nth i xs 0) ->
  same_result (fourier_interp2d env data (IndArr a) nt np rr) (fourier_interp2d env data (IndSeq [ys; xs]) nt np rr).
Proof.
  intros env data ny nx a ys xs nt np rr Hs Hy Hx Hlen Ha Hv.
  destruct (fourier_interp2d_ok env data ny nx (IndSeq [ys; xs]) (arr_of_list ys) (arr_of_list xs)
     (Z.of_nat (length ys)) (Z.of_nat (length xs)) nt np rr Hs Hy Hx (check_seq2 ys xs)) as [r [H1 [H2 H3]]]; auto.
  { split; reflexivity. }
  destruct (fourier_interp2d_ok env data ny nx (IndArr a)
     (mk1 (Z.of_nat (length xs)) (fun i => get a [0; i]%Z)) (mk1 (Z.of_nat (length xs)) (fun i => get a [1; i]%Z))
     (Z.of_nat (length xs)) (Z.of_nat (length xs)) nt np rr Hs Hy Hx) as [r' [H1' [H2' H3']]]; auto.
  { unfold check_outinds, ndim. simpl. rewrite Ha. reflexivity. }
  { unfold coords2, axis_coords. rewrite Ha. split; reflexivity. }
  rewrite H1, H1'. simpl.
  assert (E : aeq r' r).
  { split; [rewrite H2, H2', Hlen; reflexivity|]. intros i Hi. rewrite H2' in Hi. apply inb2 in Hi. destruct Hi as [i0 [j0 [-> [Hi Hj]]]].
    rewrite H3, H3'. unfold g1; simpl.
    destruct (Hv (Z.to_nat i0)) as [E1 _]; try lia. destruct (Hv (Z.to_nat j0)) as [_ E2]; try lia.
    rewrite Z2Nat.id in E1, E2 by lia. rewrite E1, E2. reflexivity. }
  destruct E as [E1 E2]. unfold pick_real. destruct rr; simpl; split; auto; intros i Hi; simpl; rewrite ?E2; auto.
Qed.
Print Assumptions C13_two_row_array_form_agrees.

Example C13_two_row_nonvacuous : let a := mk2 2 3 (fun r i => if (r =? 0)%Z then IZR i else IZR (2 * i) / 2 + 1 / 2) in
  shape a = [2; 3]%Z /\ forall i, (i < 3)%nat -> get a [0%Z; Z.of_nat i] = nth i [0; 1; 2] 0 /\ get a [1%Z; Z.of_nat i] = nth i [1/2; 3/2; 5/2] 0.
Proof.
  cbv zeta. split; [reflexivity|]. intros [|[|[|i]]] Hi; try lia; split; cbn -[Rdiv Rplus IZR]; try reflexivity; simpl; lra.
Qed.

(** *** C12 *)
Lemma bracket_between n (xp : Z -> R) (i : Z) x : (0 <= i)%Z -> (i + 1 < Z.of_nat n)%Z ->
  (forall a b, (0 <= a)%Z -> (a < b)%Z -> (b < Z.of_nat n)%Z -> xp a < xp b) -> xp i <= x -> x < xp (i + 1)%Z -> bracket n xp x = i.
Proof.
  induction n as [|n IH]; intros H0 H1 Hinc Hl Hr; [simpl in H1; lia|].
  cbn [bracket]. destruct (Rle_dec (xp (Z.of_nat n)) x) as [L|L].
  - exfalso. destruct (Z.eq_dec (Z.of_nat n) (i + 1)) as [E|E]; [rewrite E in L; lra|].
    assert (xp (i + 1)%Z < xp (Z.of_nat n)) by (apply Hinc; lia). lra.
  - destruct (Z.eq_dec (i + 1) (Z.of_nat n)) as [E|E].
    + destruct n as [|m]; [simpl in E; lia|]. cbn [bracket]. assert (Em : Z.of_nat m = i) by lia. rewrite Em. destruct (Rle_dec (xp i) x); [reflexivity|contradiction].
    + apply IH; auto; try lia. intros a b Ha Hb Hc. apply Hinc; lia.
Qed.

(** equally spaced data_x: the interpolant in units of data_x, constant beyond both ends *)
Corollary C12_equally_spaced :
  forall env (data : arr R) n (dx out_x : arr R) m (x0 h : R) nt np,
  shape data = [n] -> (0 < n)%Z -> shape dx = [n] -> shape out_x = [m] -> 0 < h ->
  (forall a, (0 <= a < n)%Z -> g1 dx a = x0 + IZR a * h) ->
  exists r, fourier_interp1d env (re_img data) out_x (Some dx) nt np true = Ok (RealArr r) /\ shape r = [m] /\
    forall j, (0 <= j < m)%Z ->
      (x0 <= g1 out_x j <= x0 + IZR (n - 1) * h -> g1 r j = trig_interpR [n] (get data) [(g1 out_x j - x0) / h]) /\
      (g1 out_x j <= x0 -> g1 r j = g1 data 0%Z) /\ (x0 + IZR (n - 1) * h <= g1 out_x j -> g1 r j = g1 data (n - 1)%Z).
Proof.
  intros env data n dx out_x m x0 h nt np Hs Hn Hd Hm Hh Hx.
  assert (Hinc : forall a b, (0 <= a)%Z -> (a < b)%Z -> (b < n)%Z -> g1 dx a < g1 dx b).
  { intros a b Ha Hb Hc. rewrite !Hx by lia. apply Rplus_lt_compat_l. apply Rmult_lt_compat_r; [exact Hh|]. apply IZR_lt. exact Hb. }
  destruct (fourier_interp1d_dx_ok env (re_img data) n out_x dx m nt np true Hs Hn Hm Hd) as [r [H1 [H2 H3]]].
  assert (Hp : pos_shape [n]) by (repeat constructor; auto).
  eexists. split; [exact H1|]. split; [exact H2|]. intros j Hj.
  assert (V : g1 (amap Re r) j = trig_interpR [n] (get data) [np_interp n (g1 dx) IZR (g1 out_x j)]).
  { unfold g1 at 1. cbn [get amap]. rewrite H3 by auto. apply interpN_realpart; auto. }
  assert (N : forall i, (0 <= i < n)%Z -> trig_interpR [n] (get data) [IZR i] = g1 data i).
  { intros i Hi. rewrite <- interpN_realpart by (auto; reflexivity). change [IZR i] with (toR [i]). rewrite interpN_int by auto.
    rewrite modl_small by (simpl; lia). reflexivity. }
  change (pick_real true r) with (RealArr (amap Re r)). split; [|split].
  - intros [Hl Hr]. rewrite V. f_equal. f_equal.
    destruct (Req_dec (g1 out_x j) (x0 + IZR (n - 1) * h)) as [Q|Q].
    + rewrite np_interp_right by (auto; rewrite Hx by lia; lra). rewrite Q. field. lra.
    + destruct (archimed ((g1 out_x j - x0) / h)) as [A1 A2]. set (i := (up ((g1 out_x j - x0) / h) - 1)%Z).
      assert (Q' : g1 out_x j - x0 = (g1 out_x j - x0) / h * h) by (field; lra).
      assert (B1 : IZR i <= (g1 out_x j - x0) / h) by (unfold i; rewrite minus_IZR; lra).
      assert (B2 : (g1 out_x j - x0) / h < IZR (i + 1)) by (unfold i; replace (up ((g1 out_x j - x0) / h) - 1 + 1)%Z with (up ((g1 out_x j - x0) / h)) by lia; lra).
      assert (C1 : IZR i * h <= g1 out_x j - x0) by (rewrite Q'; apply Rmult_le_compat_r; lra).
      assert (C2 : g1 out_x j - x0 < IZR (i + 1) * h) by (rewrite Q' at 1; apply Rmult_lt_compat_r; lra).
      assert (I0 : (-1 < i)%Z). { apply lt_IZR. assert (0 < IZR (i + 1)) by (apply (Rmult_lt_reg_r h); lra). rewrite plus_IZR in H. lra. }
      assert (I1 : (i < n - 1)%Z). { apply lt_IZR. apply (Rmult_lt_reg_r h); lra. }
      unfold np_interp. rewrite (bracket_between (Z.to_nat n) (g1 dx) i); rewrite ?Z2Nat.id by lia; auto; try lia; try (rewrite Hx by lia; lra).
      destruct (Z.ltb_spec i 0); [lia|]. destruct (Z.eqb_spec i (n - 1)); [lia|]. rewrite !Hx by lia. rewrite plus_IZR. field. lra.
  - intros Hl. rewrite V, np_interp_left by (auto; rewrite Hx by lia; lra). apply N; lia.
  - intros Hr. rewrite V, np_interp_right by (auto; rewrite Hx by lia; lra). apply N; lia.
Qed.
Print Assumptions C12_equally_spaced.
