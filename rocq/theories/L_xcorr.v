(** Lemmas about cross_correlation_shifts *)
From Coq Require Import ZArith Lia List Reals Lra Bool.
From Coquelicot Require Import Complex.
From Verif Require Import Base NDim DFT Kernel Py M_fast_ffts M_shift M_convolve M_correlate Arg M_chi2 M_xcorr
  Sum2 Spec2 Spec3 L_correlate L_chi2.
Import ListNotations.
Open Scope R_scope.

(** *** autocorrelation facts *)
Section Auto.
  Variables (ny nx : Z) (f : Z -> Z -> R).
  Hypotheses (Hy : (0 < ny)%Z) (Hx : (0 < nx)%Z).
  Let F (i j : Z) : R := f (i mod ny)%Z (j mod nx)%Z.
  Let A (s t : Z) : R := ccf ny nx f f s t.

  Lemma pair_sum a b c d : sum2 ny nx (fun i j => F (i + a) (j + b) * F (i + c) (j + d)) = A (c - a) (d - b).
  Proof.
    unfold A, ccf. change (pixel_sum ny nx) with (sum2 ny nx).
    rewrite <- (sum2_shift ny nx (fun i j => f ((i - (c - a)) mod ny)%Z ((j - (d - b)) mod nx)%Z * f i j) c d) by auto.
    apply sum2_ext. intros i j Hi Hj. unfold F. f_equal. f_equal.
    - rewrite Zminus_mod_idemp_l. f_equal. lia.
    - rewrite Zminus_mod_idemp_l. f_equal. lia.
  Qed.

  Lemma auto_sym s t : A (- s) (- t) = A s t.
  Proof.
    rewrite <- (Z.sub_0_l s), <- (Z.sub_0_l t), <- (pair_sum s t 0 0).
    replace (A s t) with (A (s - 0) (t - 0)) by (f_equal; lia). rewrite <- (pair_sum 0 0 s t).
    apply sum2_ext. intros. apply Rmult_comm.
  Qed.

  Let q (u v : Z -> Z -> R) : R := sum2 ny nx (fun i j => u i j * v i j).
  Let ux (i j : Z) := F (i + 0) (j + 1) - F (i + 0) (j + (-1)).
  Let uy (i j : Z) := F (i + 1) (j + 0) - F (i + (-1)) (j + 0).

  Lemma q_diff a b c d a' b' c' d' :
    q (fun i j => F (i + a) (j + b) - F (i + c) (j + d)) (fun i j => F (i + a') (j + b') - F (i + c') (j + d')) =
    A (a' - a) (b' - b) - A (c' - a) (d' - b) - A (a' - c) (b' - d) + A (c' - c) (d' - d).
  Proof.
    unfold q. rewrite <- !pair_sum, <- !sum2_minus, <- sum2_plus. apply sum2_ext. intros. ring.
  Qed.

  Lemma cauchy u v : (q u v) ^ 2 <= q u u * q v v.
  Proof.
    assert (P : forall t, 0 <= q u u - 2 * t * q u v + t ^ 2 * q v v).
    { intros t. replace (q u u - 2 * t * q u v + t ^ 2 * q v v) with (sum2 ny nx (fun i j => (u i j - t * v i j) * (u i j - t * v i j))).
      - apply sum2_nonneg. intros. apply Rle_0_sqr.
      - unfold q. rewrite <- !sum2_scal, <- sum2_minus, <- sum2_plus. apply sum2_ext. intros. ring. }
    assert (Q : 0 <= q v v) by (apply sum2_nonneg; intros; apply Rle_0_sqr).
    destruct (Req_EM_T (q v v) 0) as [E|E].
    - assert (P1 := P ((q u u + 1) / (2 * q u v))). destruct (Req_EM_T (q u v) 0) as [E0|E0].
      + rewrite E0, E. simpl. lra.
      + rewrite E in P1. replace (2 * ((q u u + 1) / (2 * q u v)) * q u v) with (q u u + 1) in P1 by (field; auto). lra.
    - assert (P1 := P (q u v / q v v)). apply (Rmult_le_compat_r (q v v)) in P1; [|auto]. rewrite Rmult_0_l in P1.
      replace ((q u u - 2 * (q u v / q v v) * q u v + (q u v / q v v) ^ 2 * q v v) * q v v) with (q u u * q v v - (q u v) ^ 2) in P1 by (field; auto).
      lra.
  Qed.

  Lemma w_nonneg u : 0 <= q u u.
  Proof. apply sum2_nonneg. intros. apply Rle_0_sqr. Qed.

  (** a periodic sequence with zero second difference is constant *)
  Lemma second_diff_0 (n : Z) (g : Z -> R) : (0 < n)%Z -> (forall i, g (i + n)%Z = g i) ->
    (forall i, (0 <= i < n)%Z -> g (i + 1)%Z - 2 * g i + g (i - 1)%Z = 0) -> forall i, (0 <= i)%Z -> g (i + 1)%Z = g i.
  Proof.
    intros Hn Hp H.
    assert (H' : forall i, (0 <= i)%Z -> g (i + 1)%Z - 2 * g i + g (i - 1)%Z = 0).
    { assert (R : forall k, (0 <= k)%Z -> forall i, (0 <= i < n)%Z -> g (i + k * n + 1)%Z - 2 * g (i + k * n)%Z + g (i + k * n - 1)%Z = 0).
      { intros k Hk. pattern k. apply natlike_ind; [|intros m Hm IH|exact Hk].
        - intros i Hi. rewrite Z.mul_0_l, Z.add_0_r. auto.
        - intros i Hi. specialize (IH i Hi).
          replace (i + Z.succ m * n + 1)%Z with (i + m * n + 1 + n)%Z by lia. replace (i + Z.succ m * n)%Z with (i + m * n + n)%Z by lia.
          replace (i + m * n + n - 1)%Z with (i + m * n - 1 + n)%Z by lia. rewrite !Hp. exact IH. }
      intros i Hi. assert (G := R (i / n)%Z ltac:(apply Z.div_pos; lia) (i mod n)%Z ltac:(apply Z.mod_pos_bound; lia)).
      assert (E := Z.div_mod i n ltac:(lia)). replace (i mod n + i / n * n)%Z with i in G by lia. exact G. }
    assert (L : forall i, (0 <= i)%Z -> g i = g 0%Z + IZR i * (g 1%Z - g 0%Z)).
    { assert (L2 : forall i, (0 <= i)%Z -> g i = g 0%Z + IZR i * (g 1%Z - g 0%Z) /\ g (i + 1)%Z = g 0%Z + IZR (i + 1) * (g 1%Z - g 0%Z)).
      { intros i Hi. pattern i. apply natlike_ind; [split; simpl; try ring|intros m Hm [I1 I2]|exact Hi].
        split; [exact I2|]. assert (G := H' (m + 1)%Z ltac:(lia)). replace (m + 1 - 1)%Z with m in G by lia.
        unfold Z.succ. rewrite I1, I2 in G. rewrite !plus_IZR in *. lra. }
      intros i Hi. apply L2; auto. }
    assert (D : g 1%Z - g 0%Z = 0).
    { assert (E := Hp 0%Z). rewrite Z.add_0_l, (L n) in E by lia. assert (0 < IZR n) by (apply IZR_lt; auto).
      assert (E2 : IZR n * (g 1%Z - g 0%Z) = 0) by lra. apply Rmult_integral in E2. destruct E2; lra. }
    intros i Hi. rewrite (L (i + 1)%Z), (L i) by lia. rewrite D. ring.
  Qed.

  Lemma F_py i j : F (i + ny) j = F i j.
  Proof. unfold F. rewrite <- Z.add_mod_idemp_r, Z.mod_same, Z.add_0_r by lia. reflexivity. Qed.
  Lemma F_px i j : F i (j + nx) = F i j.
  Proof. unfold F. rewrite <- (Z.add_mod_idemp_r j), Z.mod_same, Z.add_0_r by lia. reflexivity. Qed.

  Lemma strict_x : A 0 1 < A 0 0 -> 0 <= A 0 0 - A 0 2 < 4 * (A 0 0 - A 0 1).
  Proof.
    intros H. set (w := fun i j => (F (i + 0) (j + 1) - F (i + 0) (j + 0)) - (F (i + 0) (j + 0) - F (i + 0) (j + (-1)))).
    assert (E1 : q ux ux = 2 * (A 0 0 - A 0 2)).
    { unfold ux. rewrite q_diff. simpl Z.sub. replace (A 0 (-2)) with (A (-0) (-2)) by reflexivity. change (-2)%Z with (- (2))%Z.
      rewrite (auto_sym 0 2). ring. }
    assert (E2 : q w w = 8 * (A 0 0 - A 0 1) - 2 * (A 0 0 - A 0 2)).
    { unfold q, w.
      rewrite (sum2_ext _ _ _ (fun i j =>
         (F (i+0) (j+1) - F (i+0) (j+0)) * (F (i+0) (j+1) - F (i+0) (j+0)) +
         (F (i+0) (j+0) - F (i+0) (j+(-1))) * (F (i+0) (j+0) - F (i+0) (j+(-1))) -
         2 * ((F (i+0) (j+1) - F (i+0) (j+0)) * (F (i+0) (j+0) - F (i+0) (j+(-1)))))) by (intros; ring).
      rewrite sum2_minus, sum2_plus, sum2_scal.
      assert (Q := fun a b c d a' b' c' d' => q_diff a b c d a' b' c' d'). unfold q in Q. rewrite !Q. simpl Z.sub.
      change (A 0 (-1)) with (A (-0) (- (1))). rewrite (auto_sym 0 1). change (A 0 (-2)) with (A (-0) (- (2))). rewrite (auto_sym 0 2). ring. }
    assert (P1 := w_nonneg ux). assert (P2 := w_nonneg w). split; [lra|].
    destruct (Req_EM_T (q w w) 0) as [E|E]; [|lra]. exfalso.
    assert (W : forall i j, (0 <= i < ny)%Z -> (0 <= j < nx)%Z -> w i j = 0).
    { intros i j Hi Hj. assert (G := sum2_nonneg_0 ny nx (fun i j => w i j * w i j) ltac:(intros; apply Rle_0_sqr) E i j Hi Hj).
      cbv beta in G. apply Rmult_integral in G. tauto. }
    assert (K : A 0 1 = A 0 0).
    { replace (A 0 1) with (A (0 - 0) (1 - 0)) by (f_equal; lia). replace (A 0 0) with (A (0 - 0) (0 - 0)) by (f_equal; lia).
      rewrite <- !pair_sum. apply sum2_ext. intros i j Hi Hj. f_equal. rewrite Z.add_0_r.
      rewrite (second_diff_0 nx (fun j => F i j)); auto; [rewrite Z.add_0_r; reflexivity|intros; apply F_px| |lia].
      intros k Hk. assert (G := W i k Hi Hk). unfold w in G. rewrite !Z.add_0_r in G. replace (k - 1)%Z with (k + (-1))%Z by lia. lra. }
    lra.
  Qed.

  Lemma strict_y : A 1 0 < A 0 0 -> 0 <= A 0 0 - A 2 0 < 4 * (A 0 0 - A 1 0).
  Proof.
    intros H. set (w := fun i j => (F (i + 1) (j + 0) - F (i + 0) (j + 0)) - (F (i + 0) (j + 0) - F (i + (-1)) (j + 0))).
    assert (E1 : q uy uy = 2 * (A 0 0 - A 2 0)).
    { unfold uy. rewrite q_diff. simpl Z.sub. change (A (-2) 0) with (A (- (2)) (- 0)). rewrite (auto_sym 2 0). ring. }
    assert (E2 : q w w = 8 * (A 0 0 - A 1 0) - 2 * (A 0 0 - A 2 0)).
    { unfold q, w.
      rewrite (sum2_ext _ _ _ (fun i j =>
         (F (i+1) (j+0) - F (i+0) (j+0)) * (F (i+1) (j+0) - F (i+0) (j+0)) +
         (F (i+0) (j+0) - F (i+(-1)) (j+0)) * (F (i+0) (j+0) - F (i+(-1)) (j+0)) -
         2 * ((F (i+1) (j+0) - F (i+0) (j+0)) * (F (i+0) (j+0) - F (i+(-1)) (j+0))))) by (intros; ring).
      rewrite sum2_minus, sum2_plus, sum2_scal.
      assert (Q := fun a b c d a' b' c' d' => q_diff a b c d a' b' c' d'). unfold q in Q. rewrite !Q. simpl Z.sub.
      change (A (-1) 0) with (A (- (1)) (- 0)). rewrite (auto_sym 1 0). change (A (-2) 0) with (A (- (2)) (- 0)). rewrite (auto_sym 2 0). ring. }
    assert (P1 := w_nonneg uy). assert (P2 := w_nonneg w). split; [lra|].
    destruct (Req_EM_T (q w w) 0) as [E|E]; [|lra]. exfalso.
    assert (W : forall i j, (0 <= i < ny)%Z -> (0 <= j < nx)%Z -> w i j = 0).
    { intros i j Hi Hj. assert (G := sum2_nonneg_0 ny nx (fun i j => w i j * w i j) ltac:(intros; apply Rle_0_sqr) E i j Hi Hj).
      cbv beta in G. apply Rmult_integral in G. tauto. }
    assert (K : A 1 0 = A 0 0).
    { replace (A 1 0) with (A (1 - 0) (0 - 0)) by (f_equal; lia). replace (A 0 0) with (A (0 - 0) (0 - 0)) by (f_equal; lia).
      rewrite <- !pair_sum. apply sum2_ext. intros i j Hi Hj. f_equal. rewrite !Z.add_0_r.
      rewrite (second_diff_0 ny (fun i => F i j)); auto; [intros; apply F_py| |lia].
      intros k Hk. assert (G := W k j Hk Hj). unfold w in G. rewrite !Z.add_0_r in G. replace (k - 1)%Z with (k + (-1))%Z by lia. lra. }
    lra.
  Qed.

  (** the discrete Hessian of an autocorrelation is non-degenerate at a strict maximum *)
  Lemma auto_hessian : A 0 1 < A 0 0 -> A 1 0 < A 0 0 ->
    ((A 1 (-1) - A 1 1) / 2) ^ 2 < 4 * ((A 0 0 - A 0 1) * (A 0 0 - A 1 0)).
  Proof.
    intros H1 H2. assert (X := strict_x H1). assert (Y := strict_y H2).
    assert (E1 : q ux ux = 2 * (A 0 0 - A 0 2)).
    { unfold ux. rewrite q_diff. simpl Z.sub. change (A 0 (-2)) with (A (-0) (- (2))). rewrite (auto_sym 0 2). ring. }
    assert (E2 : q uy uy = 2 * (A 0 0 - A 2 0)).
    { unfold uy. rewrite q_diff. simpl Z.sub. change (A (-2) 0) with (A (- (2)) (- 0)). rewrite (auto_sym 2 0). ring. }
    assert (E3 : q ux uy = 2 * (A 1 (-1) - A 1 1)).
    { unfold ux, uy. rewrite q_diff. simpl Z.sub. change (A (-1) (-1)) with (A (- (1)) (- (1))). rewrite (auto_sym 1 1).
      replace (A (-1) 1) with (A 1 (-1)) by (rewrite <- auto_sym; reflexivity). ring. }
    assert (C := cauchy ux uy). rewrite E1, E2, E3 in C.
    set (p := A 0 0 - A 0 2) in *. set (r := A 0 0 - A 2 0) in *. set (a := A 0 0 - A 0 1) in *. set (b := A 0 0 - A 1 0) in *.
    assert (G : p * r < 4 * a * (4 * b)).
    { destruct (Req_EM_T r 0) as [->|Hr].
      - rewrite Rmult_0_r. apply Rmult_lt_0_compat; lra.
      - apply Rmult_le_0_lt_compat; lra. }
    replace ((2 * (A 1 (-1) - A 1 1)) ^ 2) with (16 * ((A 1 (-1) - A 1 1) / 2) ^ 2) in C by field. lra.
  Qed.
End Auto.

(** *** the local derivatives *)
Lemma slice_first n : (0 < n)%Z -> exists s h, pyslice n (0 - 1) (0 + 2) = (s, h) /\ (h < 2)%Z.
Proof.
  intros H. unfold pyslice. do 2 eexists. split; [reflexivity|].
  destruct (Z.ltb_spec (0 - 1) 0); [|lia]. destruct (Z.ltb_spec (0 + 2) 0); lia.
Qed.
Lemma slice_last n : (2 <= n)%Z -> pyslice n (n - 1 - 1) (n - 1 + 2) = (n - 1 - 1, 2)%Z.
Proof.
  intros H. unfold pyslice. destruct (Z.ltb_spec (n - 1 - 1) 0); [lia|]. destruct (Z.ltb_spec (n - 1 + 2) 0); [lia|]. f_equal; lia.
Qed.
Lemma slice_mid n y : (1 <= y <= n - 2)%Z -> pyslice n (y - 1) (y + 2) = (y - 1, 3)%Z.
Proof.
  intros H. unfold pyslice. destruct (Z.ltb_spec (y - 1) 0); [lia|]. destruct (Z.ltb_spec (y + 2) 0); [lia|]. f_equal; lia.
Qed.

Lemma derivs_first ny nx m y x : (0 < ny)%Z -> (0 < nx)%Z -> y = 0%Z \/ x = 0%Z -> local_derivs ny nx m y x = Raise ValueError.
Proof.
  intros Hy Hx H. unfold local_derivs. destruct H as [->| ->].
  - destruct (slice_first ny Hy) as [s [h [-> Hh]]]. destruct (pyslice nx (x - 1) (x + 2)) as [x0 w]. unfold gradient. cbn [mk2 shape].
    destruct (Z.ltb_spec h 2); [reflexivity|lia].
  - destruct (slice_first nx Hx) as [s [h [-> Hh]]]. destruct (pyslice ny (y - 1) (y + 2)) as [y0 w]. unfold gradient. cbn [mk2 shape].
    destruct (Z.ltb_spec h 2); [|lia]. rewrite orb_true_r. reflexivity.
Qed.

(** zero outside the image *)
Definition zext (ny nx : Z) (m : Z -> Z -> R) (k l : Z) : R := if (k <? ny)%Z then if (l <? nx)%Z then m k l else 0 else 0.

Lemma derivs_pos ny nx m y x : (1 <= y < ny)%Z -> (1 <= x < nx)%Z ->
  let z := zext ny nx m in
  local_derivs ny nx m y x =
  Ok (if (x =? nx - 1)%Z then m y x - m y (x - 1)%Z else (m y (x + 1)%Z - m y (x - 1)%Z) / 2,
      if (y =? ny - 1)%Z then m y x - m (y - 1)%Z x else (m (y + 1)%Z x - m (y - 1)%Z x) / 2,
      z (y + 1)%Z x + z (y - 1)%Z x - 2 * z y x, z y (x - 1)%Z + z y (x + 1)%Z - 2 * z y x,
      1 / 4 * (z (y + 1)%Z (x - 1)%Z + z (y - 1)%Z (x + 1)%Z - z (y + 1)%Z (x + 1)%Z - z (y - 1)%Z (x - 1)%Z)).
Proof.
  intros Hy Hx z. unfold local_derivs.
  assert (Ltb : forall a b, (a < b)%Z -> (a <? b)%Z = true) by (intros; apply Z.ltb_lt; auto).
  assert (Gtb : forall a b, (b <= a)%Z -> (a <? b)%Z = false) by (intros; apply Z.ltb_ge; auto).
  assert (NY : (y <> ny - 1 -> 1 <= y <= ny - 2)%Z) by lia. assert (NX : (x <> nx - 1 -> 1 <= x <= nx - 2)%Z) by lia.
  assert (E : forall w, m y w = m (y - 1 + 1)%Z w) by (intros; f_equal; lia).
  assert (Ex : forall w, m w x = m w (x - 1 + 1)%Z) by (intros; f_equal; lia).
  assert (E0 : forall w, m w (x - 1)%Z = m w (x - 1 + 0)%Z) by (intros; f_equal; lia).
  assert (E1 : forall w, m (y - 1)%Z w = m (y - 1 + 0)%Z w) by (intros; f_equal; lia).
  assert (E2 : forall w, m (y + 1)%Z w = m (y - 1 + 2)%Z w) by (intros; f_equal; lia).
  assert (E3 : forall w, m w (x + 1)%Z = m w (x - 1 + 2)%Z) by (intros; f_equal; lia).
  assert (SL : forall n k, (2 <= n)%Z -> k = (n - 1)%Z -> pyslice n (k - 1) (k + 2) = (k - 1, 2)%Z) by (intros n k ? ->; apply slice_last; auto).
  destruct (Z.eqb_spec y (ny - 1)) as [Ey|Ny]; destruct (Z.eqb_spec x (nx - 1)) as [Exx|Nx].
  - rewrite (SL ny y), (SL nx x) by lia.
    unfold z, zext. rewrite !(Gtb (y + 1)%Z), !(Gtb (x + 1)%Z), !(Ltb (y - 1)%Z), !(Ltb (x - 1)%Z), !(Ltb y), !(Ltb x) by lia.
    rewrite !E, !E1, !E0, !Ex. reflexivity.
  - rewrite (SL ny y), (slice_mid nx) by lia.
    unfold z, zext. rewrite !(Gtb (y + 1)%Z), !(Ltb (x + 1)%Z), !(Ltb (y - 1)%Z), !(Ltb (x - 1)%Z), !(Ltb y), !(Ltb x) by lia.
    rewrite !E, !E1, !E3, !E0, !Ex. reflexivity.
  - rewrite (SL nx x), (slice_mid ny) by lia.
    unfold z, zext. rewrite !(Ltb (y + 1)%Z), !(Gtb (x + 1)%Z), !(Ltb (y - 1)%Z), !(Ltb (x - 1)%Z), !(Ltb y), !(Ltb x) by lia.
    rewrite !E2, !E, !E1, !E0, !Ex. reflexivity.
  - rewrite !slice_mid by lia.
    unfold z, zext. rewrite !(Ltb (y + 1)%Z), !(Ltb (x + 1)%Z), !(Ltb (y - 1)%Z), !(Ltb (x - 1)%Z), !(Ltb y), !(Ltb x) by lia.
    rewrite !E2, !E, !E1, !E3, !E0, !Ex. reflexivity.
Qed.

Lemma derivs_mid ny nx m y x : (1 <= y <= ny - 2)%Z -> (1 <= x <= nx - 2)%Z ->
  local_derivs ny nx m y x = Ok ((m y (x + 1)%Z - m y (x - 1)%Z) / 2, (m (y + 1)%Z x - m (y - 1)%Z x) / 2,
    m (y + 1)%Z x + m (y - 1)%Z x - 2 * m y x, m y (x - 1)%Z + m y (x + 1)%Z - 2 * m y x,
    1 / 4 * (m (y + 1)%Z (x - 1)%Z + m (y - 1)%Z (x + 1)%Z - m (y + 1)%Z (x + 1)%Z - m (y - 1)%Z (x - 1)%Z)).
Proof.
  intros Hy Hx. rewrite derivs_pos by lia.
  assert (Z1 : forall k l, (k < ny)%Z -> (l < nx)%Z -> zext ny nx m k l = m k l).
  { intros k l Hk Hl. unfold zext. destruct (Z.ltb_spec k ny); [|lia]. destruct (Z.ltb_spec l nx); [reflexivity|lia]. }
  destruct (Z.eqb_spec y (ny - 1)); [lia|]. destruct (Z.eqb_spec x (nx - 1)); [lia|]. rewrite !Z1 by lia. reflexivity.
Qed.

(** derivatives depend only on the pixels of the map *)
Lemma derivs_ext ny nx m m' y x : (0 < ny)%Z -> (0 < nx)%Z -> (0 <= y < ny)%Z -> (0 <= x < nx)%Z ->
  (forall k l, (0 <= k < ny)%Z -> (0 <= l < nx)%Z -> m k l = m' k l) ->
  local_derivs ny nx m y x = local_derivs ny nx m' y x.
Proof.
  intros Hy Hx HY HX H.
  destruct (Z.eq_dec y 0) as [E|E]; [rewrite !derivs_first by auto; reflexivity|].
  destruct (Z.eq_dec x 0) as [E'|E']; [rewrite !derivs_first by auto; reflexivity|].
  rewrite !derivs_pos by lia.
  assert (Z1 : forall k l, (0 <= k)%Z -> (0 <= l)%Z -> zext ny nx m k l = zext ny nx m' k l).
  { intros k l Hk Hl. unfold zext. destruct (Z.ltb_spec k ny); [|auto]. destruct (Z.ltb_spec l nx); [apply H; lia|auto]. }
  rewrite !Z1 by lia.
  destruct (Z.eqb_spec y (ny - 1)); destruct (Z.eqb_spec x (nx - 1)); rewrite !H by lia; reflexivity.
Qed.

(** *** the whole function *)
(** sum of squares *)
Definition sqsum (ny nx : Z) (f : Z -> Z -> R) : R := sum2 ny nx (fun i j => (f i j) ^ 2).
(** lines 84-173 as a function of the correlation map m and the sums of squares *)
Definition xtail (agpy : option fitter) (ny nx : Z) (m : Z -> Z -> R) (em : option (list (list num))) (s1 s2 : R) (maxoff : option Z) (gaussfit re : bool) : res (list xnum) :=
  let '(ymax, xmax) := argmax2 ny nx m in
  if Req_EM_T (m ymax xmax) 0 then Ok [XF 0; XF 0] else
  match maxoff with
  | Some _ => Raise TypeError
  | None =>
    if gaussfit then match agpy with Some fit => gauss_shifts fit ny nx m em | None => Raise ImportError end else
    let! d := local_derivs ny nx m ymax xmax in
    let '(fx, fy, fxx, fyy, fxy) := d in
    let sx := xnegadd (IZR xmax - ccen nx) (xdiv (XF (fyy * fx - fy * fxy)) (XF (fxy ^ 2 - fxx * fyy))) in
    let sy := xnegadd (IZR ymax - ccen ny) (xdiv (XF (fxx * fy - fx * fxy)) (XF (fxy ^ 2 - fxx * fyy))) in
    if re then
      match zucker (IZR (ny * nx)) s1 s2 (m ymax xmax) fxx with
      | XNaN => Raise ValueError
      | ex => Ok [sx; sy; ex; zucker (IZR (ny * nx)) s1 s2 (m ymax xmax) fyy]
      end
    else Ok [sx; sy]
  end.

Lemma argmax2_ext ny nx m m' : (0 < ny)%Z -> (0 < nx)%Z -> (forall k l, (0 <= k < ny)%Z -> (0 <= l < nx)%Z -> m k l = m' k l) ->
  argmax2 ny nx m = argmax2 ny nx m'.
Proof. intros Hy Hx H. apply argmin2_ext; auto. intros. rewrite H; auto. Qed.

Lemma rows_ext {A} ny nx (m m' : Z -> Z -> A) : (forall k l, (0 <= k < ny)%Z -> (0 <= l < nx)%Z -> m k l = m' k l) -> rows ny nx m = rows ny nx m'.
Proof.
  intros H. apply map_ext_in. intros i Hi. apply map_ext_in. intros j Hj. apply in_seq in Hi, Hj. apply H; lia.
Qed.
Lemma gauss_ext fit ny nx m m' em : (forall k l, (0 <= k < ny)%Z -> (0 <= l < nx)%Z -> m k l = m' k l) -> gauss_shifts fit ny nx m em = gauss_shifts fit ny nx m' em.
Proof. intros H. unfold gauss_shifts. rewrite (rows_ext ny nx m m') by auto. reflexivity. Qed.

Lemma xtail_ext agpy ny nx m m' em s1 s2 mo gf re : (0 < ny)%Z -> (0 < nx)%Z ->
  (forall k l, (0 <= k < ny)%Z -> (0 <= l < nx)%Z -> m k l = m' k l) ->
  xtail agpy ny nx m em s1 s2 mo gf re = xtail agpy ny nx m' em s1 s2 mo gf re.
Proof.
  intros Hy Hx H. unfold xtail. rewrite (argmax2_ext ny nx m m') by auto.
  assert (S := argmin2_spec ny nx (fun i j => - m' i j) Hy Hx). fold (argmax2 ny nx m') in S.
  destruct (argmax2 ny nx m') as [y x]. destruct S as [S1 [S2 _]]. cbn [fst snd] in *.
  rewrite (derivs_ext ny nx m m') by auto. rewrite (H y x) by auto. destruct (Req_EM_T (m' y x) 0); [reflexivity|]. destruct mo; [reflexivity|].
  destruct gf; [|reflexivity]. destruct agpy as [fit|]; [|reflexivity]. apply gauss_ext; auto.
Qed.

Definition errim_ok (o : option (arr num)) (ny nx : Z) : Prop := match o with None => True | Some a => shape a = [ny; nx] end.

(** *** the error map the Gaussian fit gets *)
(** population standard deviation *)
Definition std2 (ny nx : Z) (f : Z -> Z -> R) : R := sqrt (sum2 ny nx (fun i j => (f i j - sum2 ny nx f / IZR (ny * nx)) ^ 2) / IZR (ny * nx)).
(** the error of a pixel: the error image, or the standard deviation of the image; NaNs count as 0 *)
Definition pixel_error (ny nx : Z) (o : option (arr num)) (f : Z -> Z -> R) (y x : Z) : R := match o with None => std2 ny nx f | Some a => px a y x end.
Definition emap (ny nx : Z) (s1 s2 q1 q2 : Z -> Z -> R) (k l : Z) : num :=
  half_power_over (IZR (ny * nx))
    (ccf ny nx (fun y x => s1 y x ^ 2) q2 ((ny - 1) / 2 - k) ((nx - 1) / 2 - l) + ccf ny nx (fun y x => s2 y x ^ 2) q1 ((ny - 1) / 2 - k) ((nx - 1) / 2 - l)).

Lemma ccf_ext ny nx f f' g g' s t : (0 < ny)%Z -> (0 < nx)%Z ->
  (forall y x, (0 <= y < ny)%Z -> (0 <= x < nx)%Z -> f y x = f' y x) -> (forall y x, (0 <= y < ny)%Z -> (0 <= x < nx)%Z -> g y x = g' y x) ->
  ccf ny nx f g s t = ccf ny nx f' g' s t.
Proof. intros Hy Hx Hf Hg. apply sum2_ext. intros i j Hi Hj. rewrite Hf, Hg by (auto; apply Z.mod_pos_bound; auto). reflexivity. Qed.
Lemma emap_ext ny nx s1 s2 q1 q2 s1' s2' q1' q2' k l : (0 < ny)%Z -> (0 < nx)%Z ->
  (forall y x, (0 <= y < ny)%Z -> (0 <= x < nx)%Z -> s1 y x ^ 2 = s1' y x ^ 2 /\ s2 y x ^ 2 = s2' y x ^ 2 /\ q1 y x = q1' y x /\ q2 y x = q2' y x) ->
  emap ny nx s1 s2 q1 q2 k l = emap ny nx s1' s2' q1' q2' k l.
Proof. intros Hy Hx H. unfold emap. f_equal. f_equal; apply ccf_ext; auto; intros; apply H; auto. Qed.
Lemma std2_ext ny nx f f' : (forall y x, (0 <= y < ny)%Z -> (0 <= x < nx)%Z -> f y x = f' y x) -> std2 ny nx f = std2 ny nx f'.
Proof. intros H. unfold std2. rewrite (sum2_ext ny nx f f') by auto. f_equal. f_equal. apply sum2_ext. intros. rewrite H; auto. Qed.
Lemma std_std2 ny nx f F : (forall i j, (0 <= i < ny)%Z -> (0 <= j < nx)%Z -> f [i; j] = F i j) -> std [ny; nx] f = std2 ny nx F.
Proof.
  intros H. unfold std, std2. cbv zeta. rewrite prodZ_2. rewrite !sum2_sumNR. rewrite (sum2_ext ny nx (fun i j => f [i; j]) F) by auto.
  f_equal. f_equal. apply sum2_ext. intros i j Hi Hj. rewrite H by auto. reflexivity.
Qed.
Lemma broadcast_same sh i : length i = length sh -> inb sh i -> broadcast_index sh i = i.
Proof.
  revert i. induction sh as [|n sh IH]; intros [|k i] HL HI; cbn in *; try discriminate; [reflexivity|].
  destruct HI as [H1 H2]. unfold broadcast_index in *. cbn [zipw]. rewrite IH by (auto; lia). destruct (Z.eqb_spec n 1); [|reflexivity]. f_equal. lia.
Qed.
Lemma error_corr_ok e er1 er2 f1 f2 q1 q2 F1 F2 Q1 Q2 nt np huge ny nx :
  (0 < ny)%Z -> (0 < nx)%Z -> size_ok e huge ny nx -> errim_ok er1 ny nx -> errim_ok er2 ny nx ->
  (forall i j, (0 <= i < ny)%Z -> (0 <= j < nx)%Z -> f1 [i; j] = F1 i j /\ f2 [i; j] = F2 i j /\ q1 [i; j] = Q1 i j /\ q2 [i; j] = Q2 i j) ->
  exists a,
  error_corr e (match er1 with None => fin_arr [ny; nx] (fun _ => std [ny; nx] f1) | Some a => a end)
    (match er2 with None => fin_arr [ny; nx] (fun _ => std [ny; nx] f2) | Some a => a end) [ny; nx] q1 q2 BWrap nt np huge = Ok a /\
  arr_rows a = rows ny nx (emap ny nx (pixel_error ny nx er1 F1) (pixel_error ny nx er2 F2) Q1 Q2).
Proof.
  intros Hy Hx Hh He1 He2 HF. unfold error_corr.
  assert (S : forall o f, errim_ok o ny nx -> shape (amap num_sq (match o with None => fin_arr [ny; nx] (fun _ => std [ny; nx] f) | Some a => a end)) = [ny; nx]).
  { intros [a|] f H; [exact H|reflexivity]. }
  assert (V : forall o f F y x, (forall i j, (0 <= i < ny)%Z -> (0 <= j < nx)%Z -> f [i; j] = F i j) ->
    nan0 (get (amap num_sq (match o with None => fin_arr [ny; nx] (fun _ => std [ny; nx] f) | Some a => a end)) [y; x]) = pixel_error ny nx o F y x ^ 2).
  { intros [a|] f F y x H; cbn [amap get fin_arr num_sq nan0 pixel_error].
    - unfold px. destruct (get a [y; x]); cbn; [reflexivity|ring].
    - rewrite (std_std2 ny nx f F) by auto. reflexivity. }
  destruct (correlate2d_wrap (e_fftw e) (e_gb e) _ (fin_arr [ny; nx] q2) nt np huge ny nx (S er1 f1 He1) eq_refl Hy Hx Hh) as [c1 [-> [S1 V1]]]. cbn [bind].
  destruct (correlate2d_wrap (e_fftw e) (e_gb e) _ (fin_arr [ny; nx] q1) nt np huge ny nx (S er2 f2 He2) eq_refl Hy Hx Hh) as [c2 [-> [S2 V2]]]. cbn [bind].
  rewrite S1, S2. assert (B : broadcasts [ny; nx] [ny; nx] = true) by (cbn; rewrite !Z.eqb_refl; reflexivity). rewrite B.
  assert (BS : broadcast_shape [ny; nx] [ny; nx] = [ny; nx]) by (cbn; destruct (Z.eqb_spec ny 1); destruct (Z.eqb_spec nx 1); congruence). rewrite BS.
  eexists. split; [reflexivity|]. unfold arr_rows. cbn [shape nth]. apply rows_ext. intros k l Hk Hl. unfold g2 at 1. cbn [get].
  rewrite broadcast_same by (cbn; auto; lia). unfold emap. rewrite prodZ_2. f_equal.
  change (get c1 [k; l]) with (g2 c1 k l). change (get c2 [k; l]) with (g2 c2 k l). rewrite V1, V2 by auto.
  f_equal; unfold ccf; apply sum2_ext; intros i j Hi Hj; destruct (HF i j Hi Hj) as [_ [_ [A1 A2]]].
  - unfold g2. rewrite (V er1 f1 F1) by (intros; apply HF; auto). cbn [fin_arr get nan0]. rewrite A2, Rmult_comm. do 2 f_equal. f_equal; f_equal; lia.
  - unfold g2. rewrite (V er2 f2 F2) by (intros; apply HF; auto). cbn [fin_arr get nan0]. rewrite A1, Rmult_comm. do 2 f_equal. f_equal; f_equal; lia.
Qed.

(** with error images of any shape *)
Lemma xcorr_gen e agpy im1 im2 er1 er2 mo gf re zm nt np huge ny nx :
  shape im1 = [ny; nx] -> shape im2 = [ny; nx] -> (0 < ny)%Z -> (0 < nx)%Z -> size_ok e huge ny nx ->
  let P1 := prep zm im1 ny nx in let P2 := prep zm im2 ny nx in
  let m := fun k l => ccf ny nx P1 P2 ((ny - 1) / 2 - k) ((nx - 1) / 2 - l) / IZR (ny * nx) in
  exists f1 f2,
  (forall i j, (0 <= i < ny)%Z -> (0 <= j < nx)%Z -> f1 [i; j] = P1 i j /\ f2 [i; j] = P2 i j) /\
  cross_correlation_shifts e agpy im1 im2 er1 er2 mo gf re zm BWrap nt np huge =
  if Req_EM_T (m (fst (argmax2 ny nx m)) (snd (argmax2 ny nx m))) 0 then Ok [XF 0; XF 0] else
  match mo with
  | Some _ => Raise TypeError
  | None =>
    let! em := if re then (let! a := error_corr e (match er1 with None => fin_arr [ny; nx] (fun _ => std [ny; nx] f1) | Some a => a end)
                           (match er2 with None => fin_arr [ny; nx] (fun _ => std [ny; nx] f2) | Some a => a end) [ny; nx]
                           (fun i => f1 i ^ 2) (fun i => f2 i ^ 2) BWrap nt np huge in Ok (Some (arr_rows a))) else Ok None in
    xtail agpy ny nx m em (sqsum ny nx P1) (sqsum ny nx P2) None gf re
  end.
Proof.
  intros H1 H2 Hy Hx Hh P1 P2 mm. unfold cross_correlation_shifts. rewrite H1, H2.
  destruct (list_eq_dec Z.eq_dec [ny; nx] [ny; nx]) as [_|N]; [|congruence]. cbn [negb]. cbv zeta.
  set (f1 := fun i => nan0 (get (zero_mean zm im1) i)). set (f2 := fun i => nan0 (get (zero_mean zm im2) i)).
  change (fun i => nan0 (get (zero_mean zm im1) i) ^ 2) with (fun i => f1 i ^ 2).
  change (fun i => nan0 (get (zero_mean zm im2) i) ^ 2) with (fun i => f2 i ^ 2).
  destruct (correlate2d_wrap (e_fftw e) (e_gb e) (fin_arr [ny; nx] f1) (fin_arr [ny; nx] f2) nt np huge ny nx eq_refl eq_refl Hy Hx Hh) as [cc [Ec [Sc Vc]]].
  rewrite Ec. cbn [bind]. cbn [amap shape]. rewrite Sc.
  destruct (list_eq_dec Z.eq_dec [ny; nx] [ny; nx]) as [_|N]; [|congruence]. cbn [negb].
  rewrite prodZ_2.
  set (m := g2 (amap (fun x => x / IZR (ny * nx)) cc)).
  assert (F1 : forall i j, (0 <= i < ny)%Z -> (0 <= j < nx)%Z -> f1 [i; j] = P1 i j) by (intros; apply zero_mean_prep; auto).
  assert (F2 : forall i j, (0 <= i < ny)%Z -> (0 <= j < nx)%Z -> f2 [i; j] = P2 i j) by (intros; apply zero_mean_prep; auto).
  assert (Em : forall k l, (0 <= k < ny)%Z -> (0 <= l < nx)%Z -> m k l = mm k l).
  { intros k l Hk Hl. unfold m, mm. change (g2 (amap (fun x => x / IZR (ny * nx)) cc) k l) with (g2 cc k l / IZR (ny * nx)).
    rewrite Vc by auto. f_equal. unfold ccf. apply sum2_ext. intros i j Hi Hj.
    unfold g2 at 1 2. cbn [fin_arr get nan0]. rewrite F1, F2 by (auto; apply Z.mod_pos_bound; auto).
    rewrite Rmult_comm. f_equal. f_equal; f_equal; lia. }
  exists f1, f2. split; [intros; split; auto|].
  rewrite <- (argmax2_ext ny nx m mm) by auto.
  assert (S := argmin2_spec ny nx (fun i j => - m i j) Hy Hx). fold (argmax2 ny nx m) in S.
  assert (XE : forall em, xtail agpy ny nx mm em (sqsum ny nx P1) (sqsum ny nx P2) None gf re = xtail agpy ny nx m em (sqsum ny nx P1) (sqsum ny nx P2) None gf re)
    by (intros; symmetry; apply xtail_ext; auto).
  unfold xtail in XE at 2. destruct (argmax2 ny nx m) as [y x] eqn:EA. destruct S as [S1 [S2 _]]. cbn [fst snd] in *. rewrite <- Em by auto.
  destruct (Req_EM_T (m y x) 0) as [Z0|Z0]; [reflexivity|].
  destruct mo as [mo|]; [reflexivity|].
  match goal with |- bind ?a _ = bind ?b _ => change b with a; destruct a as [em|]; [|reflexivity] end. cbn [bind]. rewrite XE.
  replace (sumNR [ny; nx] (fun i => f1 i ^ 2)) with (sqsum ny nx P1).
  2:{ rewrite sum2_sumNR. apply sum2_ext. intros i j Hi Hj. rewrite F1; auto. }
  replace (sumNR [ny; nx] (fun i => f2 i ^ 2)) with (sqsum ny nx P2).
  2:{ rewrite sum2_sumNR. apply sum2_ext. intros i j Hi Hj. rewrite F2; auto. }
  reflexivity.
Qed.

(** with images and error images of one shape: the error map if errors are asked for *)
Definition emap_of (ny nx : Z) (er1 er2 : option (arr num)) (f g : Z -> Z -> R) (re : bool) : option (list (list num)) :=
  if re then Some (rows ny nx (emap ny nx (pixel_error ny nx er1 f) (pixel_error ny nx er2 g) (fun y x => f y x ^ 2) (fun y x => g y x ^ 2))) else None.
Lemma xcorr_eq e agpy im1 im2 er1 er2 mo gf re zm nt np huge ny nx :
  shape im1 = [ny; nx] -> shape im2 = [ny; nx] -> (0 < ny)%Z -> (0 < nx)%Z -> size_ok e huge ny nx ->
  errim_ok er1 ny nx -> errim_ok er2 ny nx ->
  let P1 := prep zm im1 ny nx in let P2 := prep zm im2 ny nx in
  cross_correlation_shifts e agpy im1 im2 er1 er2 mo gf re zm BWrap nt np huge =
  xtail agpy ny nx (fun k l => ccf ny nx P1 P2 ((ny - 1) / 2 - k) ((nx - 1) / 2 - l) / IZR (ny * nx)) (emap_of ny nx er1 er2 P1 P2 re)
    (sqsum ny nx P1) (sqsum ny nx P2) mo gf re.
Proof.
  intros H1 H2 Hy Hx Hh He1 He2 P1 P2.
  destruct (xcorr_gen e agpy im1 im2 er1 er2 mo gf re zm nt np huge ny nx H1 H2 Hy Hx Hh) as [f1 [f2 [HF ->]]]. fold P1 P2 in HF |- *.
  destruct (error_corr_ok e er1 er2 f1 f2 (fun i => f1 i ^ 2) (fun i => f2 i ^ 2) P1 P2 (fun y x => P1 y x ^ 2) (fun y x => P2 y x ^ 2) nt np huge ny nx Hy Hx Hh He1 He2) as [a [-> Ha]].
  { intros i j Hi Hj. destruct (HF i j Hi Hj) as [-> ->]. auto. }
  cbn [bind]. rewrite Ha. unfold emap_of, xtail.
  destruct (argmax2 ny nx _) as [y x]. cbn [fst snd]. destruct (Req_EM_T _ 0) as [Z0|Z0]; [reflexivity|]. destruct mo as [mo|]; [reflexivity|].
  destruct re; reflexivity.
Qed.

Lemma ccen_val n : ccen n = IZR ((n - 1) / 2) + (if Z.odd n then 1 / 2 else 0).
Proof.
  unfold ccen. assert (E := Zmod_odd n). rewrite E. destruct (Z.odd n) eqn:O.
  - assert (H : (n = 2 * ((n - 1) / 2) + 1)%Z) by (apply Z.odd_spec in O; destruct O as [k ->]; Z.to_euclidean_division_equations; lia).
    rewrite H at 1. rewrite plus_IZR, mult_IZR. simpl (1 - 1)%Z. field.
  - assert (H : (n = 2 * ((n - 1) / 2) + 2)%Z).
    { assert (V : Z.even n = true) by (rewrite <- Z.negb_odd, O; reflexivity). apply Z.even_spec in V. destruct V as [k ->]. Z.to_euclidean_division_equations; lia. }
    rewrite H at 1. rewrite plus_IZR, mult_IZR. simpl (1 - 0)%Z. field.
Qed.
