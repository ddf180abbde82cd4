(** Lemmas about fast_ffts.py and shift.py *)
From Coq Require Import ZArith Lia List Reals Lra Bool.
From Coquelicot Require Import Complex.
From Verif Require Import Base NDim DFT Kernel Py M_fast_ffts M_shift Spec.
Import ListNotations.
Open Scope R_scope.

(** ** backends *)
Lemma get_ffts_fwd env nt np a : shape (fst (get_ffts env nt np) a) = shape a /\
  forall k, get (fst (get_ffts env nt np) a) k = dft (shape a) (get a) k.
Proof.
  unfold get_ffts. destruct env, np; simpl; split; auto; intros k.
  unfold dft. apply sumNC_ext. intros y Hy. rewrite phZ_sym. f_equal. f_equal. ring.
Qed.
Lemma get_ffts_inv env nt np a : shape (snd (get_ffts env nt np) a) = shape a /\
  forall k, get (snd (get_ffts env nt np) a) k = idft (shape a) (get a) k.
Proof.
  unfold get_ffts. destruct env, np; simpl; split; auto; intros k.
  unfold idft. f_equal. apply sumNC_ext. intros y Hy. f_equal. f_equal. ring.
Qed.

(** ** Dn is the Dirichlet kernel of the specification *)
Lemma D1_dirichlet n t : (0 < n)%Z -> D1 n t = dirichlet n t.
Proof. intros Hn. rewrite D1_centred by auto. reflexivity. Qed.

Lemma Dn_dirichletN sh p y : pos_shape sh -> length p = length sh -> length y = length sh ->
  Dn sh (subR p (toR y)) = dirichletN sh p y.
Proof.
  intros Hp. revert p y. induction sh as [|n sh IH]; intros [|t p] [|j y] H1 H2; simpl in *; try discriminate.
  - apply Dn_nil.
  - change (subR (t :: p) (IZR j :: toR y)) with ((t - IZR j) :: subR p (toR y)).
    rewrite Dn_cons by auto. apply pos_shape_cons in Hp. destruct Hp as [Hn Hp].
    rewrite D1_dirichlet, IH by (auto; lia). reflexivity.
Qed.

Lemma Dn_interp sh a p : pos_shape sh -> length p = length sh ->
  sumNC sh (fun y => Cmult (a y) (Dn sh (subR p (toR y)))) = trig_interp sh a p.
Proof.
  intros Hp Hl. apply sumNC_ext. intros y Hy. rewrite Dn_dirichletN; auto. apply inb_length; auto.
Qed.

Lemma Re_mult_R (r : R) (z : C) : Re (Cmult (RtoC r) z) = r * Re z.
Proof. unfold Re; simpl. ring. Qed.

Lemma trig_interp_Re sh (a : list Z -> R) p :
  Re (trig_interp sh (fun y => RtoC (a y)) p) = trig_interpR sh a p.
Proof. unfold trig_interp. rewrite Re_sumNC. apply sumNR_ext. intros y Hy. apply Re_mult_R. Qed.

(** ** offsets: zip semantics *)
Fixpoint fit_offset (offset : list R) (sh : list Z) : list R :=
  match sh with
  | [] => []
  | _ :: sh' => match offset with [] => 0 :: fit_offset [] sh' | o :: os => o :: fit_offset os sh' end
  end.
Lemma fit_offset_length o sh : length (fit_offset o sh) = length sh.
Proof. revert o; induction sh as [|n sh IH]; intros [|o os]; simpl; auto. Qed.
Lemma fit_offset_id o sh : length o = length sh -> fit_offset o sh = o.
Proof. revert o; induction sh as [|n sh IH]; intros [|o os] H; simpl in *; try discriminate; auto. f_equal. apply IH. lia. Qed.
Lemma fdot_nil_zero sh k : fdot sh k (fit_offset [] sh) = 0.
Proof. revert k; induction sh as [|n sh IH]; intros [|k ks]; simpl; auto. rewrite IH. ring. Qed.
Lemma freq_grid_fdot o sh k : length k = length sh -> freq_grid o sh k = fdot sh k (fit_offset o sh).
Proof.
  revert o k; induction sh as [|n sh IH]; intros [|o os] [|k ks] H; simpl in *; try discriminate; auto.
  - rewrite fdot_nil_zero. ring.
  - rewrite IH by lia. ring.
Qed.

Lemma check_freqs_ok (o : list R) sh : pos_shape sh -> check_freqs (map snd (combine o sh)) = Ok tt.
Proof.
  intros Hp. unfold check_freqs. replace (existsb _ _) with false; auto.
  symmetry. revert o. induction sh as [|n sh IH]; intros [|o os]; simpl; auto.
  apply pos_shape_cons in Hp. destruct Hp as [Hn Hp]. rewrite IH by auto.
  destruct (Z.eqb_spec n 0); [lia|reflexivity].
Qed.
Lemma check_fft_ok sh : pos_shape sh -> check_fft sh = Ok tt.
Proof. intros Hp. unfold check_fft. rewrite (proj2 (pos_shapeb_spec sh) Hp). reflexivity. Qed.

(** ** spatial form of shiftnd *)
Definition shifted (sh : list Z) (a : list Z -> C) (off : list R) (phase : R) (x : list Z) : C :=
  Cmult (cis (- phase)) (sumNC sh (fun y => Cmult (a y) (Dn sh (subR (subR (toR x) off) (toR y))))).

Lemma shifted_ext sh a b off ph x : (forall y, inb sh y -> a y = b y) -> shifted sh a off ph x = shifted sh b off ph x.
Proof. intros H. unfold shifted. f_equal. apply sumNC_ext. intros y Hy. rewrite H by auto. reflexivity. Qed.

Lemma shiftnd_ok env data off ph nt np rabs rreal : pos_shape (shape data) ->
  exists r : arr C, shiftnd env data off ph nt np rabs rreal = Ok (pick rabs rreal r) /\
    shape r = shape data /\
    forall x, inb (shape data) x -> get r x = shifted (shape data) (fun i => cnan0 (get data i)) (fit_offset off (shape data)) ph x.
Proof.
  intros Hp. unfold shiftnd.
  destruct (get_ffts env nt np) as [fw iv] eqn:E.
  assert (Hf := get_ffts_fwd env nt np). assert (Hi := get_ffts_inv env nt np). rewrite E in Hf, Hi. simpl in Hf, Hi.
  rewrite check_freqs_ok, check_fft_ok by auto. simpl.
  eexists; split; [reflexivity|].
  split; [apply Hi|]. intros x Hx. rewrite (proj2 (Hi _)). simpl.
  assert (Hlx := inb_length _ _ Hx).
  rewrite (idft_ext _ _ (fun k => Cmult (cis (- ph)) (Cmult (dft (shape data) (fun i => cnan0 (get data i)) k) (cis (- (2 * PI * fdot (shape data) k (fit_offset off (shape data)))))))).
  2:{ intros k Hk. rewrite (proj2 (Hf _)). rewrite freq_grid_fdot by (apply inb_length; auto).
      unfold Rminus. rewrite cis_plus. simpl. ring. }
  unfold shifted. rewrite <- idft_dft_kernel by (auto; rewrite fit_offset_length; auto).
  unfold idft. rewrite (sumNC_ext (shape data) _ (fun k => Cmult (cis (- ph)) (Cmult (Cmult (dft (shape data) (fun i => cnan0 (get data i)) k) (cis (- (2 * PI * fdot (shape data) k (fit_offset off (shape data)))))) (cis (2 * PI * phZ (shape data) k x))))).
  2:{ intros; ring. }
  rewrite sumNC_scal. ring.
Qed.

(** ** algebra of [shifted] *)
Lemma shifted_int sh a (d : list Z) ph x : pos_shape sh -> length d = length sh -> inb sh x ->
  shifted sh a (toR d) ph x = Cmult (cis (- ph)) (a (roll_src sh d x)).
Proof.
  intros Hp Hd Hx. unfold shifted, roll_src. f_equal. assert (Hl := inb_length _ _ Hx).
  rewrite <- (kron sh a (subl x d)) by (auto; rewrite subl_length; lia).
  apply sumNC_ext. intros y Hy. rewrite !subR_toR, Dn_int; auto.
  rewrite !subl_length, (inb_length _ _ Hy). lia.
Qed.

Lemma shifted_comp sh a d1 p1 d2 p2 x : pos_shape sh -> length d1 = length sh -> length d2 = length sh -> inb sh x ->
  shifted sh (shifted sh a d1 p1) d2 p2 x = shifted sh a (addR d1 d2) (p1 + p2) x.
Proof.
  intros Hp H1 H2 Hx. assert (Hl := inb_length _ _ Hx). unfold shifted.
  rewrite (sumNC_ext sh _ (fun z => sumNC sh (fun y => Cmult (cis (- p1)) (Cmult (a y) (Cmult (Dn sh (subR (subR (toR x) d2) (toR z))) (Dn sh (subR (toR z) (addR d1 (toR y))))))))).
  2:{ intros z Hz. assert (Hlz := inb_length _ _ Hz).
      rewrite <- Cmult_assoc, (Cmult_comm (sumNC _ _)), <- sumNC_scal, <- sumNC_scal. apply sumNC_ext. intros y Hy.
      assert (Hly := inb_length _ _ Hy).
      rewrite (subR_subR (toR z) d1 (toR y)) by (rewrite !toR_length; lia). ring. }
  rewrite sumNC_swap.
  replace (- (p1 + p2)) with (- p2 + - p1) by ring. rewrite cis_plus, <- Cmult_assoc. f_equal.
  rewrite <- sumNC_scal. apply sumNC_ext. intros y Hy. assert (Hly := inb_length _ _ Hy).
  rewrite !sumNC_scal. rewrite Dn_comp by (auto; rewrite ?subR_length, ?addR_length, ?toR_length; lia).
  f_equal. f_equal. f_equal.
  clear Hx Hy. revert H1 H2 Hl Hly. generalize (length sh) as m. intros m H1 H2 Hl Hly.
  revert d1 d2 x y H1 H2 Hl Hly; induction m as [|m IH]; intros [|a1 d1] [|a2 d2] [|x0 x] [|y0 y] H1 H2 Hl Hly;
    simpl in *; try discriminate; auto.
  unfold subR, addR, toR in *. simpl. rewrite IH by lia. f_equal. ring.
Qed.

Lemma shifted_zero sh a x : pos_shape sh -> inb sh x -> shifted sh a (map (fun _ => 0) sh) 0 x = a x.
Proof.
  intros Hp Hx. replace (map (fun _ => 0) sh) with (toR (zerosl sh)).
  - rewrite shifted_int; auto; [|unfold zerosl; apply map_length].
    rewrite Ropp_0, cis_0. unfold roll_src.
    replace (subl x (zerosl sh)) with x.
    + rewrite modl_small by auto. ring.
    + clear Hp a. revert x Hx. induction sh as [|n sh IH]; intros [|x0 x] Hx; simpl in *; try tauto.
      unfold subl in *; simpl. rewrite <- IH by tauto. f_equal. lia.
  - unfold toR, zerosl. rewrite map_map. reflexivity.
Qed.

Lemma shifted_lin sh a b (ca cb : C) off ph x :
  shifted sh (fun i => Cplus (Cmult ca (a i)) (Cmult cb (b i))) off ph x =
  Cplus (Cmult ca (shifted sh a off ph x)) (Cmult cb (shifted sh b off ph x)).
Proof.
  unfold shifted.
  rewrite (sumNC_ext sh _ (fun y => Cplus (Cmult ca (Cmult (a y) (Dn sh (subR (subR (toR x) off) (toR y)))))
                                          (Cmult cb (Cmult (b y) (Dn sh (subR (subR (toR x) off) (toR y))))))) by (intros; ring).
  rewrite sumNC_plus, !sumNC_scal. ring.
Qed.

Lemma shifted_sum sh a off ph : pos_shape sh -> length off = length sh ->
  sumNC sh (fun x => shifted sh a off ph x) = Cmult (cis (- ph)) (sumNC sh a).
Proof.
  intros Hp Ho. unfold shifted. rewrite sumNC_scal. f_equal. rewrite sumNC_swap.
  apply sumNC_ext. intros y Hy. assert (Hly := inb_length _ _ Hy). rewrite sumNC_scal.
  rewrite (sumNC_ext sh _ (fun x => Cconj (Dn sh (subR (addR off (toR y)) (toR x))))).
  - rewrite <- Cconj_sumNC, Dn_sum by (auto; rewrite addR_length, toR_length; lia).
    rewrite Cconj_RtoC. ring.
  - intros x Hx. rewrite Dn_conj, oppR_subR, subR_subR by (rewrite !toR_length; rewrite ?(inb_length _ _ Hx); lia).
    reflexivity.
Qed.

Lemma sq_Cmod z : RtoC (Cmod z ^ 2) = Cmult z (Cconj z).
Proof. symmetry. apply Cmult_conj. Qed.

Lemma shifted_energy sh a off ph : pos_shape sh -> length off = length sh ->
  sumNR sh (fun x => Cmod (shifted sh a off ph x) ^ 2) = sumNR sh (fun y => Cmod (a y) ^ 2).
Proof.
  intros Hp Ho. apply RtoC_inj. rewrite <- !sumNC_RtoC.
  rewrite (sumNC_ext sh _ (fun x => Cmult (shifted sh a off ph x) (Cconj (shifted sh a off ph x)))) by (intros; apply sq_Cmod).
  rewrite (sumNC_ext sh (fun y => RtoC _) (fun y => Cmult (a y) (Cconj (a y)))) by (intros; apply sq_Cmod).
  rewrite (sumNC_ext sh _ (fun x => sumNC sh (fun y => sumNC sh (fun z => Cmult (Cmult (a y) (Cconj (a z)))
     (Cmult (Dn sh (subR (addR off (toR z)) (toR x))) (Dn sh (subR (toR x) (addR off (toR y))))))))).
  2:{ intros x Hx. assert (Hlx := inb_length _ _ Hx). unfold shifted.
      rewrite Cconj_mult, <- cis_opp_conj.
      transitivity (Cmult (Cmult (cis (- ph)) (cis (- - ph))) (Cmult (sumNC sh (fun y => Cmult (a y) (Dn sh (subR (subR (toR x) off) (toR y)))))
         (Cconj (sumNC sh (fun y => Cmult (a y) (Dn sh (subR (subR (toR x) off) (toR y)))))))); [ring|].
      rewrite cis_mult_opp, Cmult_1_l, Cconj_sumNC, <- sumNC_scal_r. apply sumNC_ext. intros y Hy.
      rewrite <- sumNC_scal. apply sumNC_ext. intros z Hz.
      assert (Hly := inb_length _ _ Hy). assert (Hlz := inb_length _ _ Hz).
      rewrite Cconj_mult, Dn_conj, !subR_subR by (rewrite !toR_length; lia). rewrite oppR_subR. ring. }
  rewrite sumNC_swap. apply sumNC_ext. intros y Hy. assert (Hly := inb_length _ _ Hy).
  rewrite sumNC_swap.
  rewrite (sumNC_ext sh _ (fun z => Cmult (Cmult (a y) (Cconj (a z))) (ind (eqmodb sh (subl z y))))).
  2:{ intros z Hz. assert (Hlz := inb_length _ _ Hz). rewrite sumNC_scal. f_equal.
      rewrite Dn_comp by (auto; rewrite addR_length, toR_length; lia).
      rewrite <- Dn_int by (auto; rewrite subl_length; lia). f_equal. rewrite <- subR_toR.
      clear Hy Hz. revert Ho Hly Hlz. generalize (length sh) as m. intros m.
      revert off y z. induction m as [|m IH]; intros [|o off] [|y0 y] [|z0 z] H1 H2 H3; simpl in *; try discriminate; auto.
      unfold subR, addR, toR in *. simpl. rewrite IH by lia. f_equal. ring. }
  rewrite (sumNC_single sh _ y); auto.
  - assert (E : eqmodb sh (subl y y) = true).
    { rewrite <- (modl_small sh y) at 2 by auto. apply eqmodb_sub_modl; auto. }
    rewrite E. simpl. ring.
  - intros z Hz Hne. destruct (eqmodb sh (subl z y)) eqn:E; simpl; [|ring].
    apply eqmodb_iff in E; auto; [|apply inb_length; auto]. rewrite (modl_small sh z) in E by auto. congruence.
Qed.

Lemma shifted_real_odd sh (a : list Z -> R) off x : pos_shape sh -> all_odd sh -> length off = length sh -> inb sh x ->
  Im (shifted sh (fun i => RtoC (a i)) off 0 x) = 0.
Proof.
  intros Hp Ho Hl Hx. unfold shifted. rewrite Ropp_0, cis_0, Cmult_1_l, Im_sumNC. apply sumNR_const0.
  intros y Hy. rewrite Im_scal, Dn_real_odd; auto; [ring|].
  rewrite !subR_length, !toR_length, (inb_length _ _ Hx), (inb_length _ _ Hy). lia.
Qed.

Lemma shifted_period sh a off ph m x : pos_shape sh -> length off = length sh -> length m = length sh -> inb sh x ->
  shifted sh a (addR off (zipw (fun n j => IZR n * IZR j) sh m)) ph x = shifted sh a off ph x.
Proof.
  intros Hp Ho Hm Hx. unfold shifted. f_equal. apply sumNC_ext. intros y Hy. f_equal.
  rewrite <- (Dn_period sh (subR (subR (toR x) off) (toR y)) (map Z.opp m)); auto.
  - f_equal. assert (H1 := inb_length _ _ Hx). assert (H2 := inb_length _ _ Hy). clear Hp Hx Hy a.
    revert off m x y Ho Hm H1 H2. induction sh as [|n sh IH]; intros [|o off] [|m0 m] [|x0 x] [|y0 y] Ho Hm H1 H2; simpl in *; try discriminate; auto.
    unfold subR, addR, toR in *. simpl. rewrite IH by lia. f_equal. rewrite opp_IZR. ring.
  - assert (H1 := inb_length _ _ Hx). assert (H2 := inb_length _ _ Hy). rewrite !subR_length, !toR_length. lia.
  - rewrite map_length. auto.
Qed.
