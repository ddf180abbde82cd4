(** Lemmas about the model of downsample.py *)
From Coq Require Import ZArith Lia List Reals Lra Bool.
From Verif Require Import Base NDim Py M_downsample.
Import ListNotations.
Open Scope Z_scope.

Lemma zrange_In n i : In i (zrange n) <-> 0 <= i < n.
Proof.
  unfold zrange. rewrite in_map_iff. split.
  - intros [k [Hk Hin]]. apply in_seq in Hin. lia.
  - intros H. exists (Z.to_nat i). split; [lia|]. apply in_seq. lia.
Qed.
Lemma zrange_length n : 0 <= n -> Z.of_nat (length (zrange n)) = n.
Proof. intros H. unfold zrange. rewrite map_length, seq_length. lia. Qed.
Lemma zrange_succ n : 0 <= n -> zrange (n + 1) = zrange n ++ [n].
Proof.
  intros H. unfold zrange. replace (Z.to_nat (n + 1)) with (Z.to_nat n + 1)%nat by lia.
  rewrite seq_app, map_app. simpl. do 2 f_equal. lia.
Qed.
Lemma zrange_nonpos n : n <= 0 -> zrange n = [].
Proof. intros H. unfold zrange. replace (Z.to_nat n) with O by lia. reflexivity. Qed.
Lemma zrange_cons n : 0 < n -> exists l, zrange n = 0 :: l.
Proof. intros H. unfold zrange. destruct (Z.to_nat n) eqn:E; [lia|]. simpl. eauto. Qed.

Lemma slen_exact m i f : 0 < f -> 0 <= i < f -> 0 <= m -> slen (m * f) i f = m.
Proof.
  intros Hf Hi Hm. unfold slen. replace (m * f - i + f - 1) with ((f - 1 - i) + m * f) by ring.
  rewrite Z.div_add, Z.div_small by lia. lia.
Qed.
Lemma crop_mul n f : f <> 0 -> n - n mod f = n / f * f.
Proof. intros H. assert (E := Z_div_mod_eq_full n f). lia. Qed.

Lemma stack_reduce_ok {A B} (est : list A -> B) l sh :
  l <> [] -> (forall b, In b l -> shape b = sh) ->
  stack_reduce est l = Ok (Arr sh (fun i => est (map (fun b => get b i) l))).
Proof.
  intros Hn Hs. destruct l as [|a l]; [congruence|]. unfold stack_reduce.
  rewrite (Hs a) by (left; auto).
  replace (forallb _ (a :: l)) with true; auto. symmetry. apply forallb_forall. intros b Hb.
  rewrite (Hs b Hb). destruct (list_eq_dec Z.eq_dec sh sh); congruence.
Qed.

Lemma flat_map_nonempty {A B} (f : A -> list B) l a : In a l -> f a <> [] -> flat_map f l <> [].
Proof.
  intros Hin Hne E. destruct (f a) as [|b r] eqn:Ef; [congruence|].
  assert (In b (flat_map f l)) by (apply in_flat_map; exists a; split; auto; rewrite Ef; left; auto).
  rewrite E in H. destruct H.
Qed.

Lemma map_flat_map {A B D} (g : B -> D) (f : A -> list B) l : map g (flat_map f l) = flat_map (fun x => map g (f x)) l.
Proof. induction l; simpl; auto. rewrite map_app, IHl. reflexivity. Qed.

(** the list of pixels a downsampled pixel is computed from *)
Definition block_list {A} (img : arr A) (f a b : Z) : list A :=
  flat_map (fun j => map (fun i => g2 img (i + a * f) (j + b * f)) (zrange f)) (zrange f).

Lemma downsample_ok {A B} (img : arr A) ys xs f (est : list A -> B) :
  shape img = [ys; xs] -> 0 <= ys -> 0 <= xs -> 0 < f ->
  exists out, downsample img f est = Ok out /\ shape out = [ys / f; xs / f] /\
    forall a b, g2 out a b = est (block_list img f a b).
Proof.
  intros Hs Hy Hx Hf. unfold downsample. rewrite Hs. destruct (Z.eqb_spec f 0); [lia|].
  rewrite !crop_mul by auto.
  assert (0 <= ys / f) by (apply Z.div_pos; lia). assert (0 <= xs / f) by (apply Z.div_pos; lia).
  rewrite (stack_reduce_ok est _ [ys / f; xs / f]).
  - eexists. split; [reflexivity|]. split; [reflexivity|]. intros a b. unfold g2 at 1; simpl. f_equal.
    rewrite map_flat_map. unfold block_list. apply flat_map_ext. intros j. rewrite map_map. reflexivity.
  - destruct (zrange_cons f Hf) as [l Hl]. apply (flat_map_nonempty _ _ 0); [apply zrange_In; lia|].
    rewrite Hl. discriminate.
  - intros b Hb. apply in_flat_map in Hb. destruct Hb as [j [Hj Hb]]. apply in_map_iff in Hb. destruct Hb as [i [<- Hi]].
    apply zrange_In in Hi. apply zrange_In in Hj. simpl. rewrite !slen_exact by auto. reflexivity.
Qed.

(** ** nanmean *)
Open Scope R_scope.
Lemma Zind0 (P : Z -> Prop) : P 0%Z -> (forall n, (0 <= n)%Z -> P n -> P (n + 1)%Z) -> forall n, (0 <= n)%Z -> P n.
Proof. intros H0 HS. apply natlike_ind; auto. Qed.
Lemma sumR_snoc n f : (0 <= n)%Z -> sumR (n + 1) f = sumR n f + f n.
Proof. intros H. rewrite sumR_split by lia. f_equal. unfold sumR, sumG; simpl. rewrite Z.add_0_r. lra. Qed.

Lemma nan_count_nonneg l : (0 <= nan_count l)%Z.
Proof. induction l as [|[r|] l IH]; cbn [nan_count]; lia. Qed.
Lemma nan_count_0 l : nan_count l = 0%Z <-> forall x, In x l -> x = NaN.
Proof.
  induction l as [|[r|] l IH]; cbn [nan_count In].
  - tauto.
  - assert (H := nan_count_nonneg l). split; [lia|]. intros E. specialize (E (Fin r) (or_introl eq_refl)). discriminate.
  - rewrite IH. split; intros H x; [intros [<-|Hx]; auto|intros Hx; apply H; auto].
Qed.
Lemma nan_sum_bounds l lo hi : (forall r, In (Fin r) l -> lo <= r <= hi) ->
  IZR (nan_count l) * lo <= nan_sum l <= IZR (nan_count l) * hi.
Proof.
  induction l as [|[r|] l IH]; intros H; [simpl; lra| |].
  - cbn [nan_sum nan_count]. rewrite plus_IZR.
    assert (Hr : lo <= r <= hi) by (apply H; left; auto). assert (Hl := IH (fun r Hr => H r (or_intror Hr))). lra.
  - simpl. apply IH. intros r Hr. apply H. right; auto.
Qed.
Lemma nanmean_fin l v : nanmean l = Fin v -> (0 < nan_count l)%Z /\ v * IZR (nan_count l) = nan_sum l.
Proof.
  unfold nanmean. destruct (Z.eqb_spec (nan_count l) 0); [discriminate|]. intros H. injection H as <-.
  assert (H := nan_count_nonneg l). split; [lia|]. field. apply IZR_neq0; auto.
Qed.
Lemma nan_count_app l m : nan_count (l ++ m) = (nan_count l + nan_count m)%Z.
Proof. induction l as [|[r|] l IH]; cbn [nan_count nan_sum app]; rewrite ?IH; lia. Qed.
Lemma nan_sum_app l m : nan_sum (l ++ m) = nan_sum l + nan_sum m.
Proof. induction l as [|[r|] l IH]; cbn [nan_count nan_sum app]; rewrite ?IH; lra. Qed.
Lemma nan_sum_map n (g : Z -> num) : (0 <= n)%Z -> nan_sum (map g (zrange n)) = sumR n (fun i => nan0 (g i)).
Proof.
  revert n. apply Zind0; [reflexivity|].
  intros n Hn IH. rewrite zrange_succ, map_app, nan_sum_app, IH by auto.
  rewrite sumR_snoc by auto. f_equal. simpl map.
    destruct (g n); simpl; lra.
Qed.
Lemma nan_sum_flat_map n (g : Z -> list num) : (0 <= n)%Z -> nan_sum (flat_map g (zrange n)) = sumR n (fun j => nan_sum (g j)).
Proof.
  revert n. apply Zind0; [reflexivity|].
  intros n Hn IH. rewrite zrange_succ, flat_map_app, nan_sum_app, IH by auto.
  rewrite sumR_snoc by auto. f_equal. simpl. rewrite app_nil_r. reflexivity.
Qed.
Definition valid1 (x : num) : R := match x with Fin _ => 1 | NaN => 0 end.
Lemma nan_count_map n (g : Z -> num) : (0 <= n)%Z -> IZR (nan_count (map g (zrange n))) = sumR n (fun i => valid1 (g i)).
Proof.
  revert n. apply Zind0; [reflexivity|].
  intros n Hn IH. rewrite zrange_succ, map_app, nan_count_app, plus_IZR, IH by auto.
  rewrite sumR_snoc by auto. f_equal. simpl map.
    destruct (g n); simpl; lra.
Qed.
Lemma nan_count_flat_map n (g : Z -> list num) : (0 <= n)%Z -> IZR (nan_count (flat_map g (zrange n))) = sumR n (fun j => IZR (nan_count (g j))).
Proof.
  revert n. apply Zind0; [reflexivity|].
  intros n Hn IH. rewrite zrange_succ, flat_map_app, nan_count_app, plus_IZR, IH by auto.
  rewrite sumR_snoc by auto. f_equal. simpl. rewrite app_nil_r. reflexivity.
Qed.

Lemma block_list_In {A} (img : arr A) f a b x :
  In x (block_list img f a b) <-> exists i j, (0 <= i < f)%Z /\ (0 <= j < f)%Z /\ x = g2 img (i + a * f) (j + b * f).
Proof.
  unfold block_list. rewrite in_flat_map. split.
  - intros [j [Hj Hx]]. apply in_map_iff in Hx. destruct Hx as [i [<- Hi]]. apply zrange_In in Hi, Hj. eauto 6.
  - intros [i [j [Hi [Hj ->]]]]. exists j. split; [apply zrange_In; auto|]. apply in_map_iff. exists i. split; auto. apply zrange_In; auto.
Qed.
Lemma block_sum (img : arr num) f a b : (0 <= f)%Z ->
  nan_sum (block_list img f a b) = sumR f (fun i => sumR f (fun j => nan0 (g2 img (i + a * f) (j + b * f)))).
Proof.
  intros Hf. unfold block_list. rewrite nan_sum_flat_map by auto. rewrite sumR_swap. apply sumR_ext. intros j Hj.
  apply nan_sum_map; auto.
Qed.
Lemma block_count (img : arr num) f a b : (0 <= f)%Z ->
  IZR (nan_count (block_list img f a b)) = sumR f (fun i => sumR f (fun j => valid1 (g2 img (i + a * f) (j + b * f)))).
Proof.
  intros Hf. unfold block_list. rewrite nan_count_flat_map by auto. rewrite sumR_swap. apply sumR_ext. intros j Hj.
  apply nan_count_map; auto.
Qed.

(** regrouping a sum into blocks *)
Lemma sumR_blocks m f g : (0 <= m)%Z -> (0 <= f)%Z -> sumR (m * f) g = sumR m (fun a => sumR f (fun i => g (i + a * f)%Z)).
Proof.
  intros Hm Hf. revert m Hm. apply Zind0; [reflexivity|].
  intros m Hm IH. replace ((m + 1) * f)%Z with (m * f + f)%Z by ring. rewrite sumR_split by nia. rewrite sumR_snoc by auto.
  rewrite IH. f_equal. apply sumR_ext. intros i Hi. f_equal. lia.
Qed.

(** ** axes *)
Lemma upd_length ax v l : length (upd ax v l) = length l.
Proof. revert ax; induction l as [|h l IH]; intros [|ax]; simpl; auto. Qed.
Lemma nth_upd ax v l : (ax < length l)%nat -> nth ax (upd ax v l) 0%Z = v.
Proof. revert ax; induction l as [|h l IH]; intros [|ax] H; simpl in *; try lia; auto. apply IH; lia. Qed.
Lemma upd_upd ax v w l : upd ax v (upd ax w l) = upd ax v l.
Proof. revert ax; induction l as [|h l IH]; intros [|ax]; simpl; auto. rewrite IH; auto. Qed.
Lemma upd_nth ax l : upd ax (nth ax l 0%Z) l = l.
Proof. revert ax; induction l as [|h l IH]; intros [|ax]; simpl; auto. rewrite IH; auto. Qed.

Lemma norm_axis_ok nd axis ax : norm_axis nd axis = Ok ax -> (ax < nd)%nat.
Proof.
  unfold norm_axis. destruct (Z.leb_spec 0 axis), (Z.ltb_spec axis (Z.of_nat nd)); cbn [andb];
  destruct (Z.ltb_spec axis 0), (Z.leb_spec (- Z.of_nat nd) axis); cbn [andb]; intros E; try discriminate; injection E as <-; lia.
Qed.

Lemma pos_slen L m f ii : (0 < f)%Z -> (0 <= ii < f)%Z -> (0 <= m)%Z -> L = (m * f)%Z -> slen L ii f = m.
Proof. intros H1 H2 H3 ->. apply slen_exact; auto. Qed.

Open Scope Z_scope.
Lemma axis_truncate {B} (img : arr num) f axis ax n (est : list num -> B) tr :
  norm_axis (ndim img) axis = Ok ax -> nth ax (shape img) 0 = n -> 0 <= n -> 0 < f ->
  tr = true \/ n mod f = 0 ->
  exists out, downsample_axis true img f axis est tr = Ok out /\ shape out = upd ax (n / f) (shape img) /\
    forall i, get out i = est (map (fun ii => get img (upd ax (ii + nth ax i 0 * f) i)) (zrange f)).
Proof.
  intros Hax Hn Hn0 Hf Htr. unfold downsample_axis. rewrite Hax. cbn [bind]. rewrite Hn.
  assert (Hl := norm_axis_ok _ _ _ Hax). unfold ndim in Hl.
  destruct (Z.eqb_spec f 0); [lia|]. assert (0 <= n / f) by (apply Z.div_pos; lia).
  assert (Hm := crop_mul n f n0).
  assert (Hmod := Z.mod_pos_bound n f Hf).
  destruct (Z.ltb_spec 0 f); [|lia]. cbn [negb andb].
  destruct (Z.eqb_spec (n mod f) 0) as [E|E]; cbn [negb].
  - cbn [bind]. rewrite (stack_reduce_ok est _ (upd ax (n / f) (shape img))).
    + eexists. split; [reflexivity|]. split; [reflexivity|]. intros i. simpl. rewrite map_map. reflexivity.
    + destruct (zrange_cons f Hf) as [l ->]. discriminate.
    + intros b Hb. apply in_map_iff in Hb. destruct Hb as [ii [<- Hi]]. apply zrange_In in Hi. simpl.
      rewrite Hn. rewrite (pos_slen n (n / f)) by (auto; lia). reflexivity.
  - destruct tr; [|destruct Htr; [discriminate|contradiction]]. cbn [bind]. rewrite Hm.
    rewrite (stack_reduce_ok est _ (upd ax (n / f) (shape img))).
    + eexists. split; [reflexivity|]. split; [reflexivity|]. intros i. simpl. rewrite map_map. reflexivity.
    + destruct (zrange_cons f Hf) as [l ->]. discriminate.
    + intros b Hb. apply in_map_iff in Hb. destruct Hb as [ii [<- Hi]]. apply zrange_In in Hi. simpl.
      rewrite nth_upd, upd_upd by auto. rewrite (pos_slen _ (n / f)) by (auto; lia). reflexivity.
Qed.

Lemma axis_pad {B} (img : arr num) f axis ax n (est : list num -> B) :
  norm_axis (ndim img) axis = Ok ax -> nth ax (shape img) 0 = n -> 0 <= n -> 0 < f ->
  exists out, downsample_axis true img f axis est false = Ok out /\ shape out = upd ax ((n + f - 1) / f) (shape img) /\
    forall i, length i = length (shape img) -> 0 <= nth ax i 0 < (n + f - 1) / f ->
      get out i = est (map (fun ii => if ii + nth ax i 0 * f <? n then get img (upd ax (ii + nth ax i 0 * f) i) else NaN) (zrange f)).
Proof.
  intros Hax Hn Hn0 Hf. assert (Hmod := Z.mod_pos_bound n f Hf). assert (Hq := Z_div_mod_eq_full n f).
  destruct (Z.eq_dec (n mod f) 0) as [E|E].
  - destruct (axis_truncate img f axis ax n est false) as [out [H1 [H2 H3]]]; auto.
    assert (Ec : (n + f - 1) / f = n / f).
    { rewrite Hq at 1. replace (f * (n / f) + n mod f + f - 1) with ((f - 1) + (n / f) * f) by lia.
      rewrite Z.div_add, Z.div_small by lia. lia. }
    exists out. split; [exact H1|]. split; [rewrite Ec; exact H2|]. intros i Hl Hi. rewrite H3. f_equal.
    apply map_ext_in. intros ii Hii. apply zrange_In in Hii. destruct (Z.ltb_spec (ii + nth ax i 0 * f) n); auto.
    rewrite Ec in Hi. exfalso. assert (ii + nth ax i 0 * f < n / f * f) by nia. lia.
  - unfold downsample_axis. rewrite Hax. cbn [bind]. rewrite Hn.
    assert (Hl := norm_axis_ok _ _ _ Hax). unfold ndim in Hl.
    destruct (Z.eqb_spec f 0); [lia|]. destruct (Z.eqb_spec (n mod f) 0); [contradiction|]. cbn [negb].
    destruct (Z.ltb_spec (f - n mod f) 0); [lia|]. cbn [bind]. destruct (Z.ltb_spec 0 f); [|lia]. cbn [negb andb].
    assert (Ec : (n + f - 1) / f = n / f + 1).
    { rewrite Hq at 1. replace (f * (n / f) + n mod f + f - 1) with ((n mod f - 1) + (n / f + 1) * f) by lia.
      rewrite Z.div_add, Z.div_small by lia. lia. }
    assert (0 <= n / f) by (apply Z.div_pos; lia).
    rewrite (stack_reduce_ok est _ (upd ax ((n + f - 1) / f) (shape img))).
    + eexists. split; [reflexivity|]. split; [reflexivity|]. intros i Hil Hi. simpl. rewrite map_map. f_equal.
      apply map_ext. intros ii. simpl. rewrite nth_upd by lia. reflexivity.
    + destruct (zrange_cons f Hf) as [l ->]. discriminate.
    + intros b Hb. apply in_map_iff in Hb. destruct Hb as [ii [<- Hi]]. apply zrange_In in Hi. simpl.
      rewrite nth_upd, upd_upd by auto. rewrite (pos_slen _ (n / f + 1)) by (auto; try lia). rewrite Ec. reflexivity.
Qed.

Lemma zrange_app a b : 0 <= a -> 0 <= b -> zrange (a + b) = zrange a ++ map (fun i => a + i) (zrange b).
Proof.
  intros Ha. revert b. apply Zind0.
  - rewrite Z.add_0_r. simpl. rewrite app_nil_r. reflexivity.
  - intros b Hb IH. rewrite Z.add_assoc, !zrange_succ, IH, map_app, app_assoc by lia. reflexivity.
Qed.

Lemma nanmean_allnan_r l m : (forall x, In x m -> x = NaN) -> nanmean (l ++ m) = nanmean l.
Proof.
  intros H. unfold nanmean. rewrite nan_count_app, nan_sum_app.
  assert (E : nan_count m = 0) by (apply nan_count_0; auto). rewrite E, Z.add_0_r.
  assert (Es : nan_sum m = 0%R).
  { clear E. induction m as [|[r|] m IH]; simpl; auto.
    - specialize (H (Fin r) (or_introl eq_refl)). discriminate.
    - apply IH. intros x Hx. apply H. right; auto. }
  rewrite Es, Rplus_0_r. reflexivity.
Qed.

Lemma nanmean_padded f n c (g : Z -> num) : 0 < f -> 0 <= c * f <= n ->
  nanmean (map (fun ii => if ii + c * f <? n then g ii else NaN) (zrange f)) =
  nanmean (map g (zrange (Z.min f (n - c * f)))).
Proof.
  intros Hf Hc. set (k := Z.min f (n - c * f)).
  replace (zrange f) with (zrange k ++ map (fun i => k + i) (zrange (f - k))) by (rewrite <- zrange_app; [f_equal; lia|lia|lia]).
  rewrite map_app, nanmean_allnan_r.
  - f_equal. apply map_ext_in. intros ii Hii. apply zrange_In in Hii. destruct (Z.ltb_spec (ii + c * f) n); auto; lia.
  - intros x Hx. rewrite map_map in Hx. apply in_map_iff in Hx. destruct Hx as [ii [<- Hii]]. apply zrange_In in Hii.
    destruct (Z.ltb_spec (k + ii + c * f) n); auto; lia.
Qed.
