(** Rounding errors of positions; used by P_rounding6 *)
From Coq Require Import ZArith Lia List Reals Lra Bool.
From Coquelicot Require Import Complex.
From Verif Require Import Base NDim DFT Kernel Num Py Sum2 M_fast_ffts M_shift M_scale M_zoom M_upsample M_convolve M_correlate Arg M_chi2 M_xcorr M_register M_rounding M_rounding2 M_rounding3 M_rounding4 M_rounding6
  Spec L_shift L_scale L_upsample L_convolve Spec2 Spec3 Spec4 L_correlate L_chi2 L_zoom L_register L_register2 L_register3
  L_chi2shift L_fshift L_xcorr P_xcorr P_xcorr2 P_xcorr3 P_chi2map P_chi2errors P_chi2shift P_chi2shift2 P_register P_noise P_rounding P_rounding2 L_iterzoom2 L_rounding3 P_rounding3 P_rounding4.
Import ListNotations.
Open Scope R_scope.

(** one operation rounds its result within a factor 1 +- mu *)
Definition rounds (mu : R) (S : sarith) : Prop := 0 <= mu /\ forall x, Rabs (sa_rd S x - x) <= mu * Rabs x.

Lemma near_more p M N x' x : near p M x' x -> M <= N -> near p N x' x.
Proof. intros [H1 [H2 H3]] HN. split; [auto|]. split; [|lra]. refine (Rle_trans _ _ _ H2 _). apply Rmult_le_compat_r; lra. Qed.
Lemma near_sub p M N x' x y' y : near p M x' x -> near p N y' y -> near p (M + N) (x' - y') (x - y).
Proof. intros H K. unfold Rminus. apply near_add; [auto|apply near_opp; auto]. Qed.
Lemma near_half p M x' x : near p M x' x -> near p (M / 2) (x' / 2) (x / 2).
Proof. intros H. apply (near_scal _ _ (/ 2)) in H. rewrite Rabs_right in H by lra. unfold Rdiv. rewrite (Rmult_comm x'), (Rmult_comm x), (Rmult_comm M). exact H. Qed.

Section Positions.
Variables (mu : R) (S : sarith).
Hypothesis HR : rounds mu S.
Let e0 : 0 <= mu. Proof. exact (proj1 HR). Qed.
Notation P k := ((1 + mu) ^ k).

Lemma P1 k : 1 <= P k.
Proof. apply pow_R1_Rle. lra. Qed.
Lemma Pmono k m : (k <= m)%nat -> P k <= P m.
Proof. intros H. apply Rle_pow; [lra|auto]. Qed.
Lemma nearR k M x' x : near (P k) M x' x -> near (P (Datatypes.S k)) M (sa_rd S x') x.
Proof.
  intros H. assert (A := near_abs _ _ _ _ H). assert (HM := near_M _ _ _ _ H). destruct H as [H1 [H2 H3]]. assert (Q := proj2 HR x').
  split; [apply P1|]. split; [|auto]. cbn [pow]. replace (sa_rd S x' - x) with ((sa_rd S x' - x') + (x' - x)) by ring.
  refine (Rle_trans _ _ _ (Rabs_triang _ _) _). assert (Q2 := Rmult_le_compat_l mu _ _ e0 A).
  replace (M * ((1 + mu) * P k - 1)) with (mu * (M * P k) + M * (P k - 1)) by ring. lra.
Qed.
Lemma nearx k M x : Rabs x <= M -> near (P k) M x x.
Proof. intros H. apply near_refl; [apply P1|auto]. Qed.
Lemma nearw k m M x' x : near (P k) M x' x -> (k <= m)%nat -> near (P m) M x' x.
Proof. intros H Hk. apply (near_weaken (P k)); auto. apply Pmono. auto. Qed.

Lemma linspace_near k M start' start stop' stop num j : near (P k) M start' start -> near (P k) M stop' stop -> (0 <= j < num)%Z ->
  near (P (k + 4)) (3 * M) (linspace_at_fp S start' stop' num j) (linspace_at start stop num j).
Proof.
  intros Ha Hb Hj. assert (M0 := near_M _ _ _ _ Ha). unfold linspace_at_fp, linspace_at. destruct (Z.leb_spec num 1) as [H1|H1].
  - rewrite Rplus_0_l. apply (near_more _ M); [|lra]. apply (nearw (Datatypes.S k)); [|lia]. apply nearR. exact Ha.
  - set (m := IZR (num - 1)). assert (P0 : 0 < m) by (apply IZR_lt; lia). assert (J : 0 <= IZR j <= m) by (split; apply IZR_le; lia).
    destruct (Z.eqb_spec j (num - 1)) as [->|_].
    + fold m. replace (start + m * ((stop - start) / m)) with stop by (field; lra). apply (near_more _ M); [|lra]. apply (nearw k); [auto|lia].
    + assert (D : near (P (Datatypes.S k)) (2 * M) (sa_rd S (stop' - start')) (stop - start)).
      { apply nearR. apply (near_eq (P k) _ (M + M)); [apply near_sub; auto|auto|ring]. }
      set (d' := sa_rd S (stop' - start')) in *. set (d := stop - start) in *.
      assert (JM : Rabs (IZR j / m) <= 1).
      { rewrite Rabs_right; [apply (Rmult_le_reg_r m); auto; unfold Rdiv; rewrite Rmult_assoc, Rinv_l; lra|]. apply Rle_ge, Rmult_le_pos; [lra|left; apply Rinv_0_lt_compat; auto]. }
      assert (Y : near (P (k + 3)) (2 * M) (if Req_EM_T (sa_rd S (d' / m)) 0 then sa_rd S (sa_rd S (IZR j / m) * d') else sa_rd S (IZR j * sa_rd S (d' / m))) (IZR j * (d / m))).
      { replace (k + 3)%nat with (Datatypes.S (Datatypes.S (Datatypes.S k))) by lia. destruct (Req_EM_T _ _).
        - replace (IZR j * (d / m)) with (IZR j / m * d) by (field; lra). apply nearR. assert (J1 : near (P 1) 1 (sa_rd S (IZR j / m)) (IZR j / m)) by (apply nearR, nearx; auto).
          assert (Q := near_mul _ _ _ _ _ _ _ _ J1 D). apply (near_eq _ (P (Datatypes.S (Datatypes.S k))) _ (2 * M)) in Q; [exact Q|cbn [pow]; ring|ring].
        - apply nearR. assert (Q : near (P (Datatypes.S (Datatypes.S k))) (2 * M / m) (sa_rd S (d' / m)) (d / m)).
          { apply nearR. assert (Q := near_scal _ _ (/ m) _ _ D). rewrite (Rabs_right (/ m)) in Q by (left; apply Rinv_0_lt_compat; auto).
            unfold Rdiv. rewrite (Rmult_comm d'), (Rmult_comm d), (Rmult_comm (2 * M)). exact Q. }
          apply (near_scal _ _ (IZR j)) in Q. apply (near_more _ (Rabs (IZR j) * (2 * M / m))); [exact Q|]. rewrite Rabs_right by lra.
          replace (2 * M) with (m * (2 * M / m)) at 2 by (field; lra). apply Rmult_le_compat_r; [|lra]. apply Rmult_le_pos; [lra|left; apply Rinv_0_lt_compat; auto]. }
      replace (k + 4)%nat with (Datatypes.S (k + 3)) by lia. apply nearR. apply (near_eq (P (k + 3)) _ (2 * M + M)); [|auto|ring].
      rewrite (Rplus_comm start). apply near_add; [exact Y|apply (nearw k); [auto|lia]].
Qed.

(** the reciprocal of a rounded positive number *)
Lemma near_inv u' u : mu <= 1 / 4 -> 0 < u -> near (P 2) u u' u -> 0 < u' /\ near (P 4) (/ u) (/ u') (/ u).
Proof.
  intros He Hu [_ [H _]]. set (w := P 2 - 1) in *. assert (W : 0 <= w <= 9 / 16).
  { unfold w. cbn [pow]. split; [assert (Q := P1 2); cbn [pow] in Q; lra|]. assert (mu * mu <= 1 / 4 * (1 / 4)) by (apply Rmult_le_compat; lra). lra. }
  apply Rcomplements.Rabs_le_between in H. assert (UW : u * w <= u * (9 / 16)) by (apply Rmult_le_compat_l; lra). assert (U' : 0 < u') by lra. split; [auto|].
  assert (IV : 0 < / u) by (apply Rinv_0_lt_compat; auto). assert (IW : 0 < / u') by (apply Rinv_0_lt_compat; auto).
  split; [apply P1|]. split; [|rewrite Rabs_right; lra].
  replace (/ u' - / u) with (/ u * ((u - u') * / u')) by (field; lra). rewrite Rabs_mult, (Rabs_right (/ u)) by lra. apply Rmult_le_compat_l; [lra|].
  rewrite Rabs_mult, (Rabs_right (/ u')) by lra. apply (Rmult_le_reg_r u'); auto. rewrite Rmult_assoc, Rinv_l, Rmult_1_r by lra.
  assert (A1 : Rabs (u - u') <= u * w) by (apply Rabs_le; lra). refine (Rle_trans _ _ _ A1 _).
  replace (P 4 - 1) with (w * (2 + w)) by (unfold w; ring). assert (A2 : u * (1 - w) <= u') by lra.
  assert (A3 : w * (2 + w) * (u * (1 - w)) <= w * (2 + w) * u') by (apply Rmult_le_compat_l; [apply Rmult_le_pos; lra|auto]).
  refine (Rle_trans _ _ _ _ A3). replace (w * (2 + w) * (u * (1 - w))) with (u * w + u * w * (1 - w - w * w)) by ring.
  assert (w * w <= 9 / 16 * (9 / 16)) by (apply Rmult_le_compat; lra). assert (0 <= u * w * (1 - w - w * w)) by (apply Rmult_le_pos; [apply Rmult_le_pos; lra|lra]). lra.
Qed.
Lemma near_quot k M x' x u' u : mu <= 1 / 4 -> 0 < u -> near (P 2) u u' u -> near (P k) M x' x -> near (P (Datatypes.S (k + 4))) (M / u) (sa_rd S (x' / u')) (x / u).
Proof.
  intros He Hu Hn H. apply nearR. rewrite pow_add. unfold Rdiv. apply near_mul; [auto|]. apply near_inv; auto.
Qed.

Lemma cen_near n : (0 < n)%Z -> near (P 2) (IZR n / 2 + 1) (cen_fp S n) (cen n).
Proof.
  intros Hn. assert (P0 : 0 < IZR n) by (apply IZR_lt; auto). unfold cen_fp, cen. apply nearR. apply near_sub.
  - apply nearR, nearx. rewrite Rabs_right; lra.
  - apply nearx. destruct (_ =? _)%Z; rewrite Rabs_right; lra.
Qed.
(** the centre of the fine grid *)
Lemma target_near n m : (0 < n)%Z -> (0 <= m < n)%Z ->
  near (P 4) (2 * IZR n + 1) (sa_rd S (sa_rd S (IZR (n - 1) / 2) + sa_rd S (IZR m - cen_fp S n))) (zcen n m).
Proof.
  intros Hn Hm. assert (P0 : 0 < IZR n) by (apply IZR_lt; auto). assert (M1 : 0 <= IZR m <= IZR n) by (split; apply IZR_le; lia).
  unfold zcen. rewrite <- minus_IZR. apply nearR. apply (near_eq (P 3) _ (IZR n / 2 + (IZR n + (IZR n / 2 + 1)))); [|auto|field]. apply near_add.
  - apply (nearw 1); [|lia]. apply nearR, nearx. rewrite minus_IZR. assert (1 <= IZR n) by (apply IZR_le; lia). rewrite Rabs_right; lra.
  - apply nearR. apply near_sub; [apply nearx; rewrite Rabs_right; lra|]. apply cen_near. auto.
Qed.
(** positions of the fine grid *)
Lemma position_near n m s u' u i c' : mu <= 1 / 4 -> 0 < u -> near (P 2) u u' u -> (0 < n)%Z -> (0 <= m < n)%Z -> (0 <= i < s)%Z ->
  c' = sa_rd S (sa_rd S (IZR (n - 1) / 2) + sa_rd S (IZR m - cen_fp S n)) ->
  let h := sa_rd S (sa_rd S (IZR (s - 1) / u') / 2) in
  near (P 11) (3 * (2 * IZR n + 1 + IZR s / u / 2)) (linspace_at_fp S (sa_rd S (c' - h)) (sa_rd S (c' + h)) s i) (grid_at (zcen n m) u s i).
Proof.
  intros He Hu Hn Hn0 Hm Hi -> h. assert (T := target_near n m Hn0 Hm). set (c' := sa_rd S (_ + _)) in *. rewrite <- linspace_grid by (auto; lra).
  assert (S1 : 0 <= IZR (s - 1) <= IZR s) by (split; apply IZR_le; lia).
  assert (H : near (P 6) (IZR s / u / 2) h (IZR (s - 1) / u / 2)).
  { unfold h. apply nearR. apply near_half. apply (near_quot 0 _ _ _ _ _ He Hu Hn). apply nearx. rewrite Rabs_right; lra. }
  change 11%nat with (7 + 4)%nat. apply linspace_near; auto.
  - apply nearR. apply near_sub; [apply (nearw 4); [auto|lia]|auto].
  - apply nearR. apply near_add; [apply (nearw 4); [auto|lia]|auto].
Qed.

(** smallest and largest of rounded values *)
Lemma lmin_near {A} (f' f : A -> R) k M l : l <> [] -> (forall x, In x l -> near (P k) M (f' x) (f x)) ->
  exists a' a, lmin (map f' l) = Ok a' /\ lmin (map f l) = Ok a /\ near (P k) M a' a.
Proof.
  intros Hl H. destruct (lmin_map f' l Hl) as [p' [I' [E' L']]]. destruct (lmin_map f l Hl) as [p [I [E L]]]. rewrite E', E. do 2 eexists. split; [reflexivity|]. split; [reflexivity|].
  assert (H1 := H _ I). assert (H2 := H _ I'). assert (L1 := L _ I'). assert (L2 := L' _ I). destruct H1 as [_ [H1 B1]], H2 as [_ [H2 B2]].
  split; [apply P1|]. split; [|auto]. apply Rcomplements.Rabs_le_between in H1. apply Rcomplements.Rabs_le_between in H2. apply Rabs_le. lra.
Qed.
Lemma lmax_near {A} (f' f : A -> R) k M l : l <> [] -> (forall x, In x l -> near (P k) M (f' x) (f x)) ->
  exists a' a, lmax (map f' l) = Ok a' /\ lmax (map f l) = Ok a /\ near (P k) M a' a.
Proof.
  intros Hl H. destruct (lmax_map f' l Hl) as [p' [I' [E' L']]]. destruct (lmax_map f l Hl) as [p [I [E L]]]. rewrite E', E. do 2 eexists. split; [reflexivity|]. split; [reflexivity|].
  assert (H1 := H _ I). assert (H2 := H _ I'). assert (L1 := L _ I'). assert (L2 := L' _ I). destruct H1 as [_ [H1 B1]], H2 as [_ [H2 B2]].
  split; [apply P1|]. split; [|auto]. apply Rcomplements.Rabs_le_between in H1. apply Rcomplements.Rabs_le_between in H2. apply Rabs_le. lra.
Qed.
End Positions.
