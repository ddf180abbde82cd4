(** The interpolation kernel of numpy's frequency grid:
    Dn sh t = (1/N) sum_k exp(2 pi i sum_d f_{k_d} t_d). *)
From Coq Require Import ZArith Lia List Reals Lra Bool.
From Coquelicot Require Import Complex.
From Verif Require Import Base NDim DFT.
Import ListNotations.
Open Scope R_scope.

(** np.fft.fftfreq(n)[k] = fidx n k / n :  0,1,..,(n-1)//2,-(n//2),..,-1 *)
Definition fidx (n k : Z) : Z := if (k <=? (n - 1) / 2)%Z then k else (k - n)%Z.
Definition fftfreq (n k : Z) : R := IZR (fidx n k) / IZR n.

Lemma fidx_congr n k : exists q, (fidx n k = k + q * n)%Z.
Proof. unfold fidx. destruct (k <=? (n - 1) / 2)%Z; [exists 0%Z|exists (-1)%Z]; lia. Qed.

Lemma fidx_0 n : (0 < n)%Z -> fidx n 0 = 0%Z.
Proof.
  intros H. unfold fidx. destruct (Z.leb_spec 0 ((n - 1) / 2)); auto.
  assert (0 <= (n - 1) / 2)%Z by (apply Z.div_pos; lia). lia.
Qed.

(** sum_d fftfreq(n_d)[k_d] * t_d *)
Fixpoint fdot (sh k : list Z) (t : list R) : R :=
  match sh, k, t with
  | n :: sh', k0 :: k', t0 :: t' => fftfreq n k0 * t0 + fdot sh' k' t'
  | _, _, _ => 0
  end.

Definition Dn (sh : list Z) (t : list R) : C :=
  Cmult (RtoC (/ IZR (prodZ sh))) (sumNC sh (fun k => cis (2 * PI * fdot sh k t))).

Definition D1 (n : Z) (t : R) : C :=
  Cmult (RtoC (/ IZR n)) (sumC n (fun k => cis (2 * PI * (fftfreq n k * t)))).

Definition addR := zipw Rplus.
Definition subR := zipw Rminus.
Definition oppR := map Ropp.
Definition scalR (c : R) := map (Rmult c).
Definition toR := map IZR.

Lemma toR_length l : length (toR l) = length l.  Proof. apply map_length. Qed.
Lemma addR_length a b : length (addR a b) = Nat.min (length a) (length b).  Proof. apply zipw_length. Qed.
Lemma subR_length a b : length (subR a b) = Nat.min (length a) (length b).  Proof. apply zipw_length. Qed.

Lemma fdot_sub sh k x y : length x = length y -> fdot sh k (subR x y) = fdot sh k x - fdot sh k y.
Proof.
  revert k x y; induction sh as [|n sh IH]; intros [|k ks] [|x xs] [|y ys] H; simpl in *; try discriminate; try lra.
  change (zipw Rminus xs ys) with (subR xs ys). rewrite IH by lia. ring.
Qed.
Lemma fdot_add sh k x y : length x = length y -> fdot sh k (addR x y) = fdot sh k x + fdot sh k y.
Proof.
  revert k x y; induction sh as [|n sh IH]; intros [|k ks] [|x xs] [|y ys] H; simpl in *; try discriminate; try lra.
  change (zipw Rplus xs ys) with (addR xs ys). rewrite IH by lia. ring.
Qed.
Lemma fdot_opp sh k x : fdot sh k (oppR x) = - fdot sh k x.
Proof.
  revert k x; induction sh as [|n sh IH]; intros [|k ks] [|x xs]; simpl in *; try lra.
  change (map Ropp xs) with (oppR xs). rewrite IH. ring.
Qed.

Lemma fftfreq_cis n k (j : Z) : (0 < n)%Z ->
  cis (2 * PI * (fftfreq n k * IZR j)) = cis (2 * PI * (IZR k * IZR j / IZR n)).
Proof.
  intros Hn. destruct (fidx_congr n k) as [q Hq]. apply (cis_congr _ _ (q * j)).
  unfold fftfreq. rewrite Hq, plus_IZR, !mult_IZR. field. apply IZR_neq0; lia.
Qed.

Lemma fdot_cis sh k j : pos_shape sh -> cis (2 * PI * fdot sh k (toR j)) = cis (2 * PI * phZ sh k j).
Proof.
  intros Hp. revert k j. induction sh as [|n sh IH]; intros [|k ks] [|j js]; simpl; auto.
  apply pos_shape_cons in Hp. destruct Hp as [Hn Hp].
  rewrite !cis_2pi_plus. f_equal; [apply fftfreq_cis; auto|apply IH; auto].
Qed.

Lemma Dn_nil : Dn [] [] = RtoC 1.
Proof. unfold Dn. rewrite sumNC_nil. simpl. rewrite Rmult_0_r, cis_0, Rinv_1. ring. Qed.

Lemma Dn_cons n sh t ts : pos_shape (n :: sh) -> Dn (n :: sh) (t :: ts) = Cmult (D1 n t) (Dn sh ts).
Proof.
  intros Hp. apply pos_shape_cons in Hp. destruct Hp as [Hn Hp].
  unfold Dn, D1. rewrite sumNC_cons.
  rewrite (sumC_ext n _ (fun i => sumNC sh (fun l => Cmult (cis (2 * PI * (fftfreq n i * t))) (cis (2 * PI * fdot sh l ts))))).
  2:{ intros i Hi. apply sumNC_ext. intros l Hl. simpl fdot. apply cis_2pi_plus. }
  rewrite sumNC_factor. simpl prodZ. rewrite mult_IZR, Rinv_mult, RtoC_mult. ring.
Qed.

Lemma Dn_1 n t : (0 < n)%Z -> Dn [n] [t] = D1 n t.
Proof. intros H. rewrite Dn_cons, Dn_nil by (constructor; auto; constructor). ring. Qed.

(** K1 *)
Lemma Dn_int sh j : pos_shape sh -> length j = length sh -> Dn sh (toR j) = ind (eqmodb sh j).
Proof.
  intros Hp Hl. unfold Dn. rewrite (sumNC_ext sh _ (fun k => cis (2 * PI * phZ sh k j))).
  - apply ortho_n; auto.
  - intros k Hk. apply fdot_cis; auto.
Qed.

Lemma Dn_conj sh t : Cconj (Dn sh t) = Dn sh (oppR t).
Proof.
  unfold Dn. rewrite Cconj_mult, Cconj_RtoC, Cconj_sumNC. f_equal. apply sumNC_ext. intros k Hk.
  rewrite fdot_opp, <- cis_opp_conj. f_equal. ring.
Qed.

Lemma fdot_zeros sh t : pos_shape sh -> fdot sh (zerosl sh) t = 0.
Proof.
  intros Hp. revert t. induction sh as [|n sh IH]; intros [|t ts]; simpl; auto.
  apply pos_shape_cons in Hp. destruct Hp as [Hn Hp].
  unfold fftfreq. rewrite fidx_0 by auto. change (map (fun _ => 0%Z) sh) with (zerosl sh).
  rewrite IH by auto. unfold Rdiv. ring.
Qed.

(** orthogonality in the spatial variable *)
Lemma fdot_ortho sh k l : pos_shape sh -> inb sh k -> inb sh l ->
  Cmult (RtoC (/ IZR (prodZ sh))) (sumNC sh (fun z => cis (2 * PI * (fdot sh k (toR z) - fdot sh l (toR z)))))
  = ind (eqmodb sh (subl k l)).
Proof.
  intros Hp Hk Hl. assert (Hlk := inb_length _ _ Hk). assert (Hll := inb_length _ _ Hl).
  rewrite <- (ortho_n sh (subl k l)) by (auto; rewrite subl_length; lia).
  f_equal. apply sumNC_ext. intros z Hz.
  rewrite phZ_sub by congruence.
  replace (2 * PI * (fdot sh k (toR z) - fdot sh l (toR z))) with (2 * PI * fdot sh k (toR z) + - (2 * PI * fdot sh l (toR z))) by ring.
  replace (2 * PI * (phZ sh z k - phZ sh z l)) with (2 * PI * phZ sh z k + - (2 * PI * phZ sh z l)) by ring.
  rewrite !cis_plus, !cis_opp_conj, !fdot_cis, !(phZ_sym sh z) by auto. reflexivity.
Qed.

(** K2 *)
Lemma Dn_comp sh u v : pos_shape sh -> length u = length sh -> length v = length sh ->
  sumNC sh (fun z => Cmult (Dn sh (subR u (toR z))) (Dn sh (subR (toR z) v))) = Dn sh (subR u v).
Proof.
  intros Hp Hu Hv.
  set (iN := RtoC (/ IZR (prodZ sh))).
  rewrite (sumNC_ext sh _ (fun z => sumNC sh (fun k => sumNC sh (fun l =>
     Cmult (Cmult iN (Cmult (cis (2 * PI * fdot sh k u)) (cis (- (2 * PI * fdot sh l v)))))
           (Cmult iN (cis (2 * PI * (fdot sh l (toR z) - fdot sh k (toR z))))))))).
  2:{ intros z Hz. assert (Hlz := inb_length _ _ Hz). unfold Dn. fold iN.
      rewrite <- (sumNC_scal sh iN (fun k => cis (2 * PI * fdot sh k (subR u (toR z))))).
      rewrite <- sumNC_scal_r. apply sumNC_ext. intros k Hk.
      rewrite Cmult_assoc, <- sumNC_scal. apply sumNC_ext. intros l Hl.
      rewrite !fdot_sub by (rewrite toR_length; congruence).
      rewrite !Rmult_minus_distr_l. unfold Rminus. rewrite !cis_plus. ring. }
  rewrite sumNC_swap.
  unfold Dn. fold iN. rewrite <- sumNC_scal. apply sumNC_ext. intros k Hk.
  rewrite sumNC_swap.
  rewrite (sumNC_ext sh _ (fun l => Cmult (Cmult iN (Cmult (cis (2 * PI * fdot sh k u)) (cis (- (2 * PI * fdot sh l v))))) (ind (eqmodb sh (subl k l))))).
  2:{ intros l Hl. rewrite !sumNC_scal. f_equal. unfold iN. rewrite fdot_ortho by auto.
      assert (Hlk := inb_length _ _ Hk). assert (Hll := inb_length _ _ Hl).
      destruct (eqmodb sh (subl k l)) eqn:E1, (eqmodb sh (subl l k)) eqn:E2; auto; exfalso.
      - apply eqmodb_iff in E1; auto. rewrite (modl_small sh k) in E1 by auto. subst l.
        rewrite <- (modl_small sh k) in E2 at 2 by auto. rewrite eqmodb_sub_modl in E2 by auto. discriminate.
      - apply eqmodb_iff in E2; auto. rewrite (modl_small sh l) in E2 by auto. subst l.
        rewrite <- (modl_small sh k) in E1 at 2 by auto. rewrite eqmodb_sub_modl in E1 by auto. discriminate. }
  rewrite (kron sh (fun l => Cmult iN (Cmult (cis (2 * PI * fdot sh k u)) (cis (- (2 * PI * fdot sh l v)))))) by (auto; apply inb_length; auto).
  rewrite modl_small by auto. rewrite fdot_sub by congruence.
  rewrite Rmult_minus_distr_l. unfold Rminus. rewrite cis_plus. ring.
Qed.

(** K3 *)
Lemma Dn_sum sh u : pos_shape sh -> length u = length sh ->
  sumNC sh (fun z => Dn sh (subR u (toR z))) = RtoC 1.
Proof.
  intros Hp Hu. set (iN := RtoC (/ IZR (prodZ sh))).
  rewrite (sumNC_ext sh _ (fun z => sumNC sh (fun k => Cmult (cis (2 * PI * fdot sh k u)) (Cmult iN (cis (2 * PI * (fdot sh (zerosl sh) (toR z) - fdot sh k (toR z)))))))).
  2:{ intros z Hz. unfold Dn; fold iN. rewrite <- sumNC_scal. apply sumNC_ext. intros k Hk.
      rewrite fdot_sub by (rewrite toR_length; rewrite (inb_length _ _ Hz); auto).
      rewrite fdot_zeros by auto. rewrite Rmult_minus_distr_l. unfold Rminus. rewrite cis_plus.
      replace (2 * PI * (0 + - fdot sh k (toR z))) with (- (2 * PI * fdot sh k (toR z))) by ring. ring. }
  rewrite sumNC_swap.
  rewrite (sumNC_ext sh _ (fun k => Cmult (cis (2 * PI * fdot sh k u)) (ind (eqmodb sh (subl (zerosl sh) k))))).
  2:{ intros k Hk. rewrite !sumNC_scal. f_equal. unfold iN. apply fdot_ortho; auto. apply inb_zeros; auto. }
  rewrite (kron sh (fun k => cis (2 * PI * fdot sh k u))) by (auto; apply inb_length; apply inb_zeros; auto).
  rewrite modl_small by (apply inb_zeros; auto). rewrite fdot_zeros by auto. rewrite Rmult_0_r. apply cis_0.
Qed.

(** periodicity *)
Lemma D1_period n t (m : Z) : (0 < n)%Z -> D1 n (t + IZR n * IZR m) = D1 n t.
Proof.
  intros Hn. unfold D1. f_equal. apply sumC_ext. intros k Hk.
  apply (cis_congr _ _ (fidx n k * m)). unfold fftfreq. rewrite mult_IZR. field. apply IZR_neq0; lia.
Qed.

Lemma Dn_period sh t m : pos_shape sh -> length t = length sh -> length m = length sh ->
  Dn sh (addR t (zipw (fun n x => IZR n * IZR x) sh m)) = Dn sh t.
Proof.
  intros Hp. revert t m. induction sh as [|n sh IH]; intros [|t ts] [|m ms] Ht Hm; simpl in *; try discriminate; auto.
  change (addR (t :: ts) (IZR n * IZR m :: zipw (fun n x => IZR n * IZR x) sh ms)) with
    ((t + IZR n * IZR m) :: addR ts (zipw (fun n x => IZR n * IZR x) sh ms)).
  rewrite !Dn_cons by auto. apply pos_shape_cons in Hp. destruct Hp as [Hn Hp].
  rewrite D1_period, IH by (auto; lia). reflexivity.
Qed.

(** centred form of the frequency grid *)
Lemma fidx_centred n j : (0 < n)%Z -> (0 <= j < n)%Z -> fidx n ((j - n / 2) mod n) = (j - n / 2)%Z.
Proof.
  intros Hn Hj. unfold fidx.
  assert (H2 : (n / 2 + (n - 1) / 2 = n - 1)%Z).
  { assert (n = 2 * (n / 2) + n mod 2)%Z by (apply Z.div_mod; lia).
    assert (0 <= n mod 2 < 2)%Z by (apply Z.mod_pos_bound; lia).
    assert (E : (n mod 2 = 0 \/ n mod 2 = 1)%Z) by lia.
    destruct E as [E|E].
    - replace (n - 1)%Z with (1 + (n / 2 - 1) * 2)%Z by lia. rewrite Z.div_add by lia.
      change (1 / 2)%Z with 0%Z. lia.
    - replace (n - 1)%Z with (n / 2 * 2)%Z by lia. rewrite Z.div_mul by lia. lia. }
  assert (Hh : (0 <= n / 2 < n)%Z) by (split; [apply Z.div_pos; lia|apply Z.div_lt_upper_bound; lia]).
  destruct (Z_lt_le_dec j (n / 2)) as [H|H].
  - assert (E : ((j - n / 2) mod n = j - n / 2 + n)%Z).
    { rewrite <- (Z_mod_plus_full (j - n / 2) 1 n), Z.mul_1_l. apply Z.mod_small. lia. }
    rewrite E. destruct (Z.leb_spec (j - n / 2 + n) ((n - 1) / 2)); lia.
  - rewrite Z.mod_small by lia. destruct (Z.leb_spec (j - n / 2) ((n - 1) / 2)); lia.
Qed.

Lemma sum_fidx_centred n (F : Z -> C) : (0 < n)%Z ->
  sumC n (fun k => F (fidx n k)) = sumC n (fun j => F (j - n / 2)%Z).
Proof.
  intros Hn. rewrite <- (sumC_mod_shift n (fun k => F (fidx n k)) (- (n / 2))%Z Hn).
  apply sumC_ext. intros j Hj. f_equal. apply fidx_centred; auto.
Qed.

Lemma D1_centred n t : (0 < n)%Z ->
  D1 n t = Cmult (RtoC (/ IZR n)) (sumC n (fun j => cis (2 * PI * (IZR (j - n / 2) * t / IZR n)))).
Proof.
  intros Hn. unfold D1. f_equal.
  rewrite <- (sum_fidx_centred n (fun m => cis (2 * PI * (IZR m * t / IZR n)))) by auto.
  apply sumC_ext. intros k Hk. f_equal. unfold fftfreq. field. apply IZR_neq0; lia.
Qed.

Lemma D1_opp_odd n t : (0 < n)%Z -> Z.odd n = true -> D1 n (- t) = D1 n t.
Proof.
  intros Hn Ho. rewrite !D1_centred by auto. f_equal.
  rewrite <- sumC_rev. apply sumC_ext. intros j Hj. f_equal.
  assert (En : (n = 2 * (n / 2) + 1)%Z).
  { rewrite (Z.div_mod n 2) at 1 by lia. rewrite Zmod_odd, Ho. reflexivity. }
  replace (n - 1 - j - n / 2)%Z with (- (j - n / 2))%Z by lia. rewrite opp_IZR.
  field. apply IZR_neq0; lia.
Qed.

Definition all_odd (sh : list Z) : Prop := Forall (fun n => Z.odd n = true) sh.

Lemma Dn_opp_odd sh t : pos_shape sh -> all_odd sh -> length t = length sh -> Dn sh (oppR t) = Dn sh t.
Proof.
  intros Hp Ho. revert t. induction sh as [|n sh IH]; intros [|t ts] Hl; simpl in *; try discriminate; auto.
  change (Dn (n :: sh) (- t :: oppR ts) = Dn (n :: sh) (t :: ts)).
  rewrite !Dn_cons by auto. apply pos_shape_cons in Hp. destruct Hp as [Hn Hp].
  inversion Ho; subst. rewrite D1_opp_odd, IH by (auto; lia). reflexivity.
Qed.

Lemma Dn_real_odd sh t : pos_shape sh -> all_odd sh -> length t = length sh -> Im (Dn sh t) = 0.
Proof.
  intros Hp Ho Hl. assert (E := Dn_conj sh t). rewrite Dn_opp_odd in E by auto.
  assert (E2 := f_equal Im E). rewrite Im_conj in E2. lra.
Qed.

Lemma subR_toR x y : subR (toR x) (toR y) = toR (subl x y).
Proof.
  revert y; induction x as [|x xs IH]; intros [|y ys]; simpl; auto.
  unfold subR, toR, subl in *. simpl. rewrite IH, minus_IZR. reflexivity.
Qed.
Lemma addR_toR x y : addR (toR x) (toR y) = toR (addl x y).
Proof.
  revert y; induction x as [|x xs IH]; intros [|y ys]; simpl; auto.
  unfold addR, toR, addl in *. simpl. rewrite IH, plus_IZR. reflexivity.
Qed.
Lemma oppR_subR x y : oppR (subR x y) = subR y x.
Proof.
  revert y; induction x as [|x xs IH]; intros [|y ys]; simpl; auto.
  unfold oppR, subR in *. simpl. rewrite IH. f_equal. ring.
Qed.
Lemma subR_subR x a y : length x = length a -> length a = length y -> subR (subR x a) y = subR x (addR a y).
Proof.
  revert a y; induction x as [|x xs IH]; intros [|a l] [|y ys] H1 H2; simpl in *; try discriminate; auto.
  unfold subR, addR in *. simpl. rewrite IH by lia. f_equal. ring.
Qed.

(** spatial form of a frequency-domain multiplication by cis(2 pi f.t) *)
Lemma idft_dft_kernel sh a t x : pos_shape sh -> length t = length sh -> length x = length sh ->
  idft sh (fun k => Cmult (dft sh a k) (cis (- (2 * PI * fdot sh k t)))) x =
  sumNC sh (fun y => Cmult (a y) (Dn sh (subR (subR (toR x) t) (toR y)))).
Proof.
  intros Hp Ht Hx. unfold idft, dft.
  rewrite (sumNC_ext sh _ (fun k => sumNC sh (fun y => Cmult (a y) (cis (2 * PI * fdot sh k (subR (subR (toR x) t) (toR y))))))).
  2:{ intros k Hk. rewrite <- !sumNC_scal_r. apply sumNC_ext. intros y Hy.
      assert (Hly := inb_length _ _ Hy).
      rewrite fdot_sub by (rewrite subR_length, !toR_length; lia).
      rewrite fdot_sub by (rewrite toR_length; lia).
      rewrite <- !Cmult_assoc. f_equal.
      rewrite cis_opp_conj. rewrite <- (fdot_cis sh k y) by auto. rewrite <- (fdot_cis sh k x) by auto.
      rewrite <- cis_opp_conj, <- !cis_plus. f_equal. ring. }
  rewrite sumNC_swap, <- sumNC_scal. apply sumNC_ext. intros y Hy.
  rewrite sumNC_scal. unfold Dn. ring.
Qed.

(** value of idft's coefficients recombined at a real coordinate with the opposite sign convention
    (used by fourier_interp*: ifftn followed by exp(-2 pi i f x)) *)
Lemma idft_recombine sh a t : pos_shape sh -> length t = length sh ->
  sumNC sh (fun k => Cmult (idft sh a k) (cis (- (2 * PI * fdot sh k t)))) =
  sumNC sh (fun y => Cmult (a y) (Dn sh (subR (toR y) t))).
Proof.
  intros Hp Ht. unfold idft.
  rewrite (sumNC_ext sh _ (fun k => sumNC sh (fun y => Cmult (Cmult (RtoC (/ IZR (prodZ sh))) (a y)) (cis (2 * PI * fdot sh k (subR (toR y) t)))))).
  2:{ intros k Hk. rewrite <- sumNC_scal, <- sumNC_scal_r. apply sumNC_ext. intros y Hy.
      rewrite fdot_sub by (rewrite toR_length, (inb_length _ _ Hy); auto).
      rewrite phZ_sym, <- (fdot_cis sh k y) by auto.
      rewrite Rmult_minus_distr_l. unfold Rminus. rewrite cis_plus. ring. }
  rewrite sumNC_swap. apply sumNC_ext. intros y Hy. rewrite sumNC_scal. unfold Dn. ring.
Qed.
