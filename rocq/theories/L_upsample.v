(** Lemmas about the model of upsample.py *)
From Coq Require Import ZArith Lia List Reals Lra Bool.
From Coquelicot Require Import Complex.
From Verif Require Import Base NDim DFT Kernel Num Py M_fast_ffts M_shift M_scale M_upsample Spec L_shift L_scale.
Import ListNotations.
Open Scope R_scope.

Lemma half_sum n : (0 < n)%Z -> (n / 2 + (n - 1) / 2 = n - 1)%Z.
Proof. intros H. Z.to_euclidean_division_equations. lia. Qed.

Lemma ifftshift_idx n k : (0 < n)%Z -> (0 <= k < n)%Z -> ((k + n / 2) mod n - n / 2 = fidx n k)%Z.
Proof.
  intros Hn Hk. unfold fidx. assert (H := half_sum n Hn).
  assert (H0 : (0 <= n / 2)%Z) by (apply Z.div_pos; lia). assert (H0b : (0 <= (n - 1) / 2)%Z) by (apply Z.div_pos; lia).
  destruct (Z.leb_spec k ((n - 1) / 2)).
  - rewrite Z.mod_small by lia. lia.
  - replace (k + n / 2)%Z with ((k + n / 2 - n) + 1 * n)%Z by ring. rewrite Z.mod_add by lia.
    rewrite Z.mod_small by lia. lia.
Qed.

Lemma ifftshift_fidx n k : (0 < n)%Z -> (0 <= k < n)%Z ->
  IZR ((k + n / 2) mod n) - IZR (n / 2) = IZR (fidx n k).
Proof. intros. rewrite <- minus_IZR. f_equal. apply ifftshift_idx; auto. Qed.

Definition ups_val (nr nc : Z) (a : list Z -> C) (p q : R) : C :=
  sumC nc (fun l => Cmult (sumC nr (fun k => Cmult (cis (- (2 * PI) * (fftfreq nr k * p))) (a [k; l])))
                          (cis (- (2 * PI) * (fftfreq nc l * q)))).

Definition dft_len (o : option R) (n : Z) : Z := arange_len (match o with None => IZR n | Some v => v end).

Lemma dftups_ok (inp : arr C) nr nc nor noc usfac roff coff :
  shape inp = [nr; nc] -> (0 < nr)%Z -> (0 < nc)%Z -> usfac <> 0 ->
  exists out, dftups inp nor noc usfac roff coff = Ok out /\
    shape out = [dft_len nor nr; dft_len noc nc] /\
    forall r c, g2 out r c = ups_val nr nc (get inp) ((IZR r - roff) / usfac) ((IZR c - coff) / usfac).
Proof.
  intros Hs Hr Hc Hu. unfold dftups. rewrite Hs.
  assert (Hr' : IZR nr <> 0) by (apply IZR_neq0; lia). assert (Hc' : IZR nc <> 0) by (apply IZR_neq0; lia).
  destruct (Req_EM_T (IZR nr * usfac) 0) as [E|E]; [apply Rmult_integral in E; tauto|].
  eexists. split; [reflexivity|]. split; [reflexivity|].
  intros r c. unfold g2 at 1. simpl. unfold ups_val. apply sumC_ext. intros l Hl. f_equal.
  - apply sumC_ext. intros k Hk. unfold g2. f_equal. f_equal. unfold np_ifftshift.
    rewrite ifftshift_fidx by auto. unfold fftfreq. field. auto.
  - f_equal. unfold np_ifftshift. rewrite ifftshift_fidx by auto. unfold fftfreq. field. auto.
Qed.

Lemma odddftups_ok (inp : arr C) nr nc nor noc usfac roff coff :
  shape inp = [nr; nc] -> (0 < nr)%Z -> (0 < nc)%Z -> usfac <> 0 ->
  exists out, odddftups inp nor noc usfac roff coff = Ok out /\
    shape out = [dft_len nor nr; dft_len noc nc] /\
    forall r c, g2 out r c = ups_val nr nc (get inp) ((IZR r - roff) / usfac) ((IZR c - coff) / usfac).
Proof.
  intros Hs Hr Hc Hu. unfold odddftups. rewrite Hs.
  assert (Hr' : IZR nr <> 0) by (apply IZR_neq0; lia). assert (Hc' : IZR nc <> 0) by (apply IZR_neq0; lia).
  destruct (Req_EM_T (IZR nc * usfac) 0) as [E|E]; [apply Rmult_integral in E; tauto|].
  destruct (Req_EM_T (IZR nr * usfac) 0) as [E'|E']; [apply Rmult_integral in E'; tauto|].
  eexists. split; [reflexivity|]. split; [reflexivity|].
  intros r c. unfold g2 at 1. simpl. unfold ups_val. apply sumC_ext. intros l Hl. f_equal.
  - apply sumC_ext. intros k Hk. unfold g2. f_equal. f_equal. unfold np_ifftshift.
    rewrite ifftshift_fidx by auto. unfold fftfreq. field. auto.
  - f_equal. unfold np_ifftshift. rewrite ifftshift_fidx by auto. unfold fftfreq. field. auto.
Qed.

(** a spectrum embedded with its DC term at index 0 in a longer axis *)
Definition embed_idx (n N K : Z) : option Z :=
  if (K <? (n + 1) / 2)%Z then Some K else if (N - n / 2 <=? K)%Z then Some (K - N + n)%Z else None.

Lemma fidx_lo n k : (0 < n)%Z -> (0 <= k < (n + 1) / 2)%Z -> fidx n k = k.
Proof.
  intros Hn Hk. unfold fidx. destruct (Z.leb_spec k ((n - 1) / 2)); auto.
  exfalso. revert Hk H. Z.to_euclidean_division_equations. lia.
Qed.
Lemma fidx_hi n k : (0 < n)%Z -> ((n + 1) / 2 <= k < n)%Z -> fidx n k = (k - n)%Z.
Proof.
  intros Hn Hk. unfold fidx. destruct (Z.leb_spec k ((n - 1) / 2)); auto.
  exfalso. revert Hk H. Z.to_euclidean_division_equations. lia.
Qed.

Lemma half_up n : ((n + 1) / 2 + n / 2 = n)%Z.
Proof. Z.to_euclidean_division_equations. lia. Qed.

(** one axis: the DFT of the embedded spectrum is the sum over the original frequencies *)
Lemma embed_sum n N (a : Z -> C) (R : Z) : (0 < n)%Z -> (n <= N)%Z ->
  sumC N (fun K => Cmult (match embed_idx n N K with Some k => a k | None => RtoC 0 end)
                         (cis (- (2 * PI * (IZR K * IZR R / IZR N))))) =
  sumC n (fun k => Cmult (a k) (cis (- (2 * PI * (IZR (fidx n k) * IZR R / IZR N))))).
Proof.
  intros Hn HN. assert (Hu := half_up n).
  assert (H0 : (0 <= n / 2)%Z) by (apply Z.div_pos; lia). assert (H1 : (0 <= (n + 1) / 2)%Z) by (apply Z.div_pos; lia).
  set (lo := ((n + 1) / 2)%Z) in *. set (hi := (n / 2)%Z) in *.
  replace N with (lo + ((N - n) + hi))%Z at 1 by lia. rewrite sumC_split by lia. rewrite (sumC_split (N - n) hi) by lia.
  replace (sumC n (fun k => Cmult (a k) (cis (- (2 * PI * (IZR (fidx n k) * IZR R / IZR N)))))) with
    (sumC (lo + hi) (fun k => Cmult (a k) (cis (- (2 * PI * (IZR (fidx n k) * IZR R / IZR N)))))) by (f_equal; lia).
  rewrite sumC_split by lia.
  rewrite (sumC_const0 (N - n)).
  - rewrite Cplus_0_l. f_equal.
    + apply sumC_ext. intros k Hk. unfold embed_idx. fold lo. destruct (Z.ltb_spec k lo); [|lia].
      rewrite fidx_lo by (fold lo; lia). reflexivity.
    + apply sumC_ext. intros k Hk. unfold embed_idx. fold lo hi.
      destruct (Z.ltb_spec (lo + (N - n + k)) lo); [lia|].
      destruct (Z.leb_spec (N - hi) (lo + (N - n + k))); [|lia].
      rewrite fidx_hi by (fold lo; lia). f_equal; [f_equal; lia|].
      apply (cis_congr _ _ (- R)). rewrite !plus_IZR, !minus_IZR, plus_IZR, opp_IZR. field. apply IZR_neq0; lia.
  - intros k Hk. unfold embed_idx. fold lo hi.
    destruct (Z.ltb_spec (lo + k) lo); [lia|]. destruct (Z.leb_spec (N - hi) (lo + k)); [lia|]. apply Cmult_0_l.
Qed.

Lemma upsample_image_ok env (image : arr C) ny nx u o nt np xs ys s1 s2 :
  shape image = [ny; nx] -> (0 < ny)%Z -> (0 < nx)%Z -> u <> 0 ->
  (o = ONone /\ s1 = IZR ny * u /\ s2 = IZR nx * u \/ o = OSeq [s1; s2] \/ o = ONum s1 /\ s1 = s2) ->
  exists out, upsample_image env image u o nt np xs ys = Ok out /\
    shape out = [arange_len s1; arange_len s2] /\
    forall r c, g2 out r c = interpN [ny; nx] (get image) [(IZR r - ys) / u; (IZR c - xs) / u].
Proof.
  intros Hs Hy Hx Hu Ho. unfold upsample_image.
  assert (Hinv := get_ffts_inv env nt np image). destruct (get_ffts env nt np) as [f g]. simpl in Hinv. destruct Hinv as [Hsh Hg].
  rewrite check_fft_ok by (rewrite Hs; repeat constructor; auto). cbn [bind].
  destruct (dftups_ok (g image) ny nx (Some s1) (Some s2) u ys xs) as [out [E1 [E2 E3]]]; auto; [congruence|].
  exists out. split; [|split; [exact E2|]].
  - destruct Ho as [[-> [-> ->]]|[->|[-> ->]]]; rewrite ?Hs; exact E1.
  - intros r c. rewrite E3. unfold ups_val. rewrite <- interp2d_val by auto.
    apply sumC_ext. intros l Hl. f_equal. apply sumC_ext. intros k Hk. f_equal. rewrite Hg, Hs. reflexivity.
Qed.
