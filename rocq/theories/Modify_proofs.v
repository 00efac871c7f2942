(** Lemmas: what removing and adding one phonon does. *)
From Coq Require Import ZArith List Bool Lia Permutation.
From Verif Require Import Base NdArray NdArray_proofs Config Spec Spec_ops Config_proofs.
Import ListNotations.
Open Scope Z_scope.

Lemma occ_upd : forall a t i v t' x, inr (shp a) (t :: i) ->
  occ (upd a (t :: i) v) t' x =
  occ a t' x + if Nat.eqb t' t && eqlZ x (map Z.of_nat i) then v else 0.
Proof.
  intros. unfold occ. rewrite at_upd by auto. f_equal. simpl.
  replace (Z.of_nat t' =? Z.of_nat t) with (Nat.eqb t' t); auto.
  destruct (Nat.eqb_spec t' t); [subst; symmetry; apply Z.eqb_refl|symmetry; apply Z.eqb_neq; lia].
Qed.

Lemma inb_cons_occ : forall a t x, occ a t x <> 0 -> inb (shp a) (Z.of_nat t :: x) = true.
Proof. unfold occ, at_; intros. destruct (inb _ _); auto; easy. Qed.

Lemma norm_indexes_inb : forall s x, inb s x = true -> norm_indexes s x = Some (map Z.to_nat x).
Proof.
  induction s; destruct x; simpl; intros; try easy.
  apply andb_true_iff in H. destruct H as [H1 H2]. unfold norm_index. rewrite H1.
  rewrite IHs; auto.
Qed.

Lemma valid_wf : forall a, valid_cloud a -> wf a.
Proof. intros a [? _]; auto. Qed.

Lemma valid_nonneg : forall a, valid_cloud a -> nonneg a.
Proof. intros a [? [? [? _]]]. apply occ_nonneg; auto; lia. Qed.

Lemma valid_rank : forall a, valid_cloud a -> (2 <= length (shp a))%nat.
Proof. intros a [? [? _]]; auto. Qed.

Lemma valid_tight : forall a, valid_cloud a -> 0 < total a -> tight a.
Proof.
  intros a V T. pose proof (valid_nonneg _ V). destruct V as [W [R [N [F|F]]]]; auto.
  apply phonon_free_total in F; auto; lia.
Qed.

Lemma valid_intro : forall a, wf a -> (2 <= length (shp a))%nat -> nonneg a ->
  (total a = 0 \/ tight a) -> valid_cloud a.
Proof.
  intros. split; auto. split; auto. split; [apply occ_nonneg; auto; lia|].
  destruct H2; auto. left. apply phonon_free_total; auto; lia.
Qed.

Lemma occ_length : forall a t x, occ a t x <> 0 -> (0 < length (shp a))%nat -> length x = ndim a.
Proof. unfold occ; intros. apply at_length in H. simpl in H. unfold ndim. lia. Qed.

(** Removing one phonon leaves one face of every axis occupied. *)
Lemma remove_half_tight : forall a t i, valid_cloud a -> inr (shp a) (t :: i) ->
  0 < get a (t :: i) -> 0 < total (upd a (t :: i) (-1)) ->
  nonneg (upd a (t :: i) (-1)) ->
  forall d, (d < ndim a)%nat -> half_tight (upd a (t :: i) (-1)) d.
Proof.
  intros a t i V Hi Hg Ht Hnn d Hd. set (a1 := upd a (t :: i) (-1)) in *.
  assert (Hw1 : wf a1) by apply wf_upd.
  assert (Tp : 0 < total a).
  { unfold a1 in Ht. rewrite total_upd in Ht; auto; [lia|apply valid_wf; auto]. }
  destruct (valid_tight a V Tp d Hd) as [[tl_ [xl [Lxl [Pl Ol]]]] [tr [xr [Lxr [Pr Or]]]]].
  destruct (total_pos_slab a1 d) as [p Hp]; auto.
  { exact (valid_rank a V). }
  split; [eauto|].
  assert (Hsh : shp a1 = shp a) by auto. rewrite Hsh.
  destruct (Nat.le_gt_cases (nth (S d) (shp a) 0%nat) 1) as [D1|D2].
  - (* one layer only *)
    pose proof (occupied_slab_range _ _ _ Hp Hd). rewrite Hsh in H.
    left. replace 0 with (Z.of_nat p) by lia. auto.
  - (* two distinct faces, at most one lost its phonon *)
    assert (Hval : forall t' x, occ a1 t' x = occ a t' x + if Nat.eqb t' t && eqlZ x (map Z.of_nat i) then -1 else 0)
      by (intros; apply occ_upd; auto).
    destruct (Nat.eqb tl_ t && eqlZ xl (map Z.of_nat i)) eqn:E.
    + right. exists tr, xr. split; auto. split; auto. rewrite Hval.
      destruct (Nat.eqb tr t && eqlZ xr (map Z.of_nat i)) eqn:E2; [|lia].
      apply andb_true_iff in E, E2. destruct E as [_ E], E2 as [_ E2].
      apply eqlZ_eq in E, E2. subst. rewrite Pl in Pr. lia.
    + left. exists tl_, xl. split; auto. split; auto. rewrite Hval, E. lia.
Qed.

Lemma upd_nonneg : forall a i v, nonneg a -> inr (shp a) i -> 0 <= get a i + v -> nonneg (upd a i v).
Proof.
  intros. intros x. rewrite at_upd by auto. pose proof (H x).
  destruct (eqlZ x (map Z.of_nat i)) eqn:E; [|lia].
  apply eqlZ_eq in E. subst. rewrite at_of; auto.
Qed.

(** Sums over the types selected by [p]. *)
Definition wsum (p : Z -> bool) (a : nd) : Z :=
  sumZ (map (fun i => if p (Z.of_nat (hd 0%nat i)) then get a i else 0) (all_idx (shp a))).

Definition wat (p : Z -> bool) (a : nd) (x : list Z) : Z :=
  if p (hd 0 x) then at_ a x else 0.

Lemma wat_nz : forall p a x, wat p a x <> 0 -> at_ a x <> 0.
Proof. unfold wat; intros. destruct (p _); auto. Qed.

Lemma hd_map_of : forall i, hd 0 (map Z.of_nat i) = Z.of_nat (hd 0%nat i).
Proof. destruct i; auto. Qed.

Lemma wsum_at : forall p a l, wf a -> NoDup l ->
  (forall x, wat p a x <> 0 -> In x l) -> wsum p a = sumZ (map (wat p a) l).
Proof.
  intros. symmetry. apply sum_support_map with (g := map Z.of_nat); auto.
  - apply NoDup_all_idx.
  - intros; apply map_of_inj; auto.
  - intros. unfold wat. rewrite hd_map_of. rewrite at_of; auto. apply In_all_idx; auto.
  - intros. apply wat_nz in H2. apply at_nz in H2. destruct H2 as [i [? [? ?]]]. exists i.
    rewrite In_all_idx; auto.
Qed.

Lemma wsum_total : forall a, wf a -> total a = wsum (fun _ => true) a.
Proof. intros. rewrite total_all_idx; auto. Qed.

Lemma wsum_type : forall a t, (0 < length (shp a))%nat -> (t < ntypes a)%nat ->
  total_type a t = wsum (fun z => z =? Z.of_nat t) a.
Proof.
  intros. rewrite total_type_filter; auto. rewrite sumZ_filter_if. apply sumZ_map_ext.
  intros i Hi. replace (hd 0%nat i) with (nth 0 i 0%nat) by (destruct i; auto).
  destruct (Nat.eqb_spec (nth 0 i 0%nat) t) as [->|n]; [rewrite Z.eqb_refl; auto|].
  replace (Z.of_nat (nth 0 i 0%nat) =? Z.of_nat t) with false by lia. auto.
Qed.

(** Totals of a modified cloud. *)
Lemma modified_wsum : forall p a b s t loc e, wf a -> wf b -> (0 < length (shp a))%nat ->
  modified_by a b s t loc e -> length loc = ndim a ->
  wsum p b = wsum p a + if p (Z.of_nat t) then e else 0.
Proof.
  intros p a b s t loc e Wa Wb La [Hl [Ht [Hs H]]] Hloc.
  assert (Nd : ndim b = ndim a) by (unfold ndim; lia).
  set (la := map (map Z.of_nat) (all_idx (shp a))).
  set (lb := map (map Z.of_nat) (all_idx (shp b))).
  set (dec := list_eq_dec Z.eq_dec).
  set (L := nodup dec ((Z.of_nat t :: loc) :: la ++ map (fun x => addv x (0 :: s)) lb)).
  assert (Lmem : forall x, wat p a x <> 0 -> In x L).
  { intros x Hx. apply wat_nz in Hx. apply nodup_In. simpl. right. apply in_app_iff. left.
    apply at_nz in Hx. destruct Hx as [i [Hi [-> _]]]. apply in_map. apply In_all_idx; auto. }
  rewrite (wsum_at p a L) by (auto; apply NoDup_nodup).
  set (g := fun x => subv x (0 :: s)).
  set (L' := filter (fun x => Nat.eqb (length x) (length (shp a))) L).
  assert (HL' : forall x, In x L' -> length x = length (shp a)).
  { intros x Hx. apply filter_In in Hx. apply Nat.eqb_eq. tauto. }
  assert (Hls : length (0 :: s) = length (shp a)) by (simpl; unfold ndim in *; lia).
  rewrite (wsum_at p b (map g L')) .
  - rewrite map_map.
    transitivity (sumZ (map (fun x => wat p a x + if eqlZ x (Z.of_nat t :: loc) then (if p (Z.of_nat t) then e else 0) else 0) L')).
    + apply sumZ_map_ext. intros x Hx. pose proof (HL' x Hx) as Lx.
      destruct x as [|x0 x]; [simpl in Lx; lia|].
      unfold g, subv, oppv. cbn [map addv]. fold (oppv s). fold (subv x s).
      rewrite Z.add_0_r. simpl in Lx. unfold wat. cbn [hd].
      destruct (Z_lt_ge_dec x0 0) as [Neg|NN].
      { assert (Z1 : forall c y, at_ c (x0 :: y) = 0).
        { intros c y. unfold at_. destruct (inb (shp c) (x0 :: y)) eqn:E; auto.
          destruct (shp c); simpl in E; [easy|]. destruct (0 <=? x0) eqn:E0; [lia|simpl in E; easy]. }
        rewrite !Z1. simpl. replace (x0 =? Z.of_nat t) with false by lia. simpl. destruct (p x0); auto. }
      assert (E0 : x0 = Z.of_nat (Z.to_nat x0)) by lia. rewrite E0.
      change (at_ b (Z.of_nat (Z.to_nat x0) :: subv x s)) with (occ b (Z.to_nat x0) (subv x s)).
      rewrite H by (rewrite length_subv; unfold ndim in *; lia).
      rewrite addv_subv by (unfold ndim in *; lia). unfold occ. simpl.
      replace (Z.of_nat (Z.to_nat x0) =? Z.of_nat t) with (Nat.eqb (Z.to_nat x0) t).
      2:{ destruct (Nat.eqb_spec (Z.to_nat x0) t); lia. }
      destruct (Nat.eqb_spec (Z.to_nat x0) t); simpl.
      * subst t. destruct (p (Z.of_nat (Z.to_nat x0))); auto. destruct (eqlZ x loc); auto.
      * destruct (p (Z.of_nat (Z.to_nat x0))); auto.
    + rewrite sumZ_map_add. f_equal.
      * unfold L'. rewrite sumZ_filter_if. apply sumZ_map_ext. intros x Hx.
        destruct (Nat.eqb_spec (length x) (length (shp a))); auto.
        destruct (Z.eq_dec (wat p a x) 0) as [E|E]; [lia|]. apply wat_nz, at_length in E. easy.
      * assert (Hin : In (Z.of_nat t :: loc) L').
        { apply filter_In. split; [apply nodup_In; left; auto|]. apply Nat.eqb_eq. simpl. unfold ndim in *; lia. }
        assert (ND : NoDup L') by (apply NoDup_filter, NoDup_nodup).
        generalize (if p (Z.of_nat t) then e else 0). intros e'.
        clear - Hin ND. induction L'; [easy|]. inversion ND; subst. simpl. destruct Hin as [->|Hin].
        -- rewrite (proj2 (eqlZ_eq _ _) eq_refl). rewrite sumZ_map_zero; [lia|].
           intros x Hx. destruct (eqlZ x (Z.of_nat t :: loc)) eqn:E; auto. apply eqlZ_eq in E; subst; easy.
        -- rewrite IHL'; auto. destruct (eqlZ a0 (Z.of_nat t :: loc)) eqn:E; [|lia].
           apply eqlZ_eq in E; subst; easy.
  - auto.
  - apply NoDup_map_inj; [|apply NoDup_filter, NoDup_nodup].
    intros x y Hx Hy E. apply HL' in Hx, Hy.
    rewrite <- (addv_subv x (0 :: s)), <- (addv_subv y (0 :: s)) by lia.
    unfold g in E. congruence.
  - intros x Hx. apply in_map_iff. exists (addv x (0 :: s)). apply wat_nz in Hx.
    pose proof (at_length _ _ Hx). split.
    + apply subv_addv. lia.
    + apply filter_In. split; [|apply Nat.eqb_eq; rewrite length_addv; lia].
      apply nodup_In. simpl. right. apply in_app_iff. right.
      apply (in_map (fun x => addv x (0 :: s))).
      apply at_nz in Hx. destruct Hx as [i [Hi [-> _]]]. apply in_map. apply In_all_idx; auto.
Qed.

Lemma modified_total : forall a b s t loc e, wf a -> wf b -> (0 < length (shp a))%nat ->
  modified_by a b s t loc e -> length loc = ndim a -> total b = total a + e.
Proof.
  intros. rewrite !wsum_total; auto.
  rewrite (modified_wsum _ a b s t loc e); auto.
Qed.

Lemma modified_total_type : forall a b s t loc e t', wf a -> wf b -> (0 < length (shp a))%nat ->
  modified_by a b s t loc e -> length loc = ndim a -> (t' < ntypes a)%nat ->
  total_type b t' = total_type a t' + if Nat.eqb t' t then e else 0.
Proof.
  intros. pose proof H2 as [? [? [? ?]]]. rewrite !wsum_type by (auto; lia).
  rewrite (modified_wsum _ a b s t loc e); auto. f_equal.
  destruct (Nat.eqb_spec t' t); [subst; rewrite Z.eqb_refl; auto|].
  replace (Z.of_nat t =? Z.of_nat t') with false by lia. auto.
Qed.

(** C02 *)
Lemma remove_spec : forall a mm m t loc,
  valid_cloud a -> m < mm -> 0 < occ a t loc ->
  exists b s, remove_phonon (mkConfig a mm m) (Z.of_nat t :: loc) = Ok (mkConfig b mm (m + 1), s) /\
    valid_cloud b /\ modified_by a b (shift_vec (ndim a) s) t loc (-1) /\
    total b = total a - 1 /\ Forall (fun z => 0 <= z) (shift_vec (ndim a) s) /\
    (total b = 0 -> shift_vec (ndim a) s = zerov (ndim a) /\ shp b = shp a).
Proof.
  intros a mm m t loc V Hm Ho.
  pose proof (valid_rank _ V) as R. pose proof (valid_wf _ V) as W. pose proof (valid_nonneg _ V) as N.
  assert (Hb : inb (shp a) (Z.of_nat t :: loc) = true) by (apply inb_cons_occ; lia).
  unfold remove_phonon. cbn [cfg max_mods mods].
  replace (m <? mm) with true by lia. cbn [guard bind].
  rewrite (proj2 (Nat.eqb_eq _ _) (inb_length _ _ Hb)). cbn [guard bind].
  rewrite (norm_indexes_inb _ _ Hb). cbn [map]. rewrite Nat2Z.id.
  apply inb_inv in Hb. destruct Hb as [i' [Hi E]]. destruct i' as [|t' i]; [easy|].
  cbn [map] in E. injection E as E1 E2. apply Nat2Z.inj in E1. subst t' loc.
  rewrite map_to_of.
  unfold occ in Ho. change (Z.of_nat t :: map Z.of_nat i) with (map Z.of_nat (t :: i)) in Ho.
  rewrite at_of in Ho; auto.
  set (a1 := upd a (t :: i) (-1)).
  assert (G : get a1 (t :: i) = get a (t :: i) - 1).
  { unfold a1. rewrite get_upd; auto.
    rewrite (proj2 (eqln_eq (t :: i) (t :: i)) eq_refl). lia. }
  replace (0 <=? get a1 (t :: i)) with true by lia. cbn [guard bind].
  assert (N1 : nonneg a1) by (apply upd_nonneg; auto; lia).
  assert (W1 : wf a1) by apply wf_upd.
  assert (T1 : total a1 = total a - 1) by (unfold a1; rewrite total_upd; auto; lia).
  assert (Hval : forall t' x, occ a1 t' x = occ a t' x + if Nat.eqb t' t && eqlZ x (map Z.of_nat i) then -1 else 0)
      by (intros; apply occ_upd; auto).
  destruct (Z.eq_dec (total a1) 0) as [Z0|NZ].
  - unfold reduction_rules. rewrite Z0. cbn [Z.eqb bind fst snd].
    exists a1, (SScalar 0). cbn [shift_vec]. fold (zerov (ndim a)).
    split; auto. split; [apply valid_intro; auto|]. split; [|split; [auto|split; auto]].
    + split; auto. split; auto. split; [apply length_zerov|].
      intros t' x Hx. rewrite addv_zerov; auto.
    + clear. unfold zerov. induction (ndim a); simpl; constructor; auto; lia.
  - assert (T1p : 0 < total a1) by (pose proof (total_nonneg _ W1 N1); lia).
    destruct (reduction_spec a1 W1 N1 R T1p (remove_half_tight a t i V Hi Ho T1p N1))
      as [b [s [E [Wb [Nb [Lb [Tb [Tib [Ls [Ps Hs]]]]]]]]]].
    rewrite E. cbn [bind fst snd].
    assert (Ndim : ndim a1 = ndim a) by auto. rewrite Ndim in *.
    exists b, (SVec s). cbn [shift_vec].
    assert (Mb : modified_by a b s t (map Z.of_nat i) (-1)).
    { split; auto. split; auto. split; auto.
      intros t' x Hx. rewrite Hs by lia. apply Hval. }
    assert (Tt : total b = total a + -1).
    { apply modified_total with (s := s) (t := t) (loc := map Z.of_nat i); auto; try lia.
      apply inr_length in Hi. rewrite map_length. simpl in Hi. unfold ndim. lia. }
    split; auto. split; [apply valid_intro; auto; rewrite Lb; auto|].
    split; [auto|split; [lia|split; [auto|lia]]].
Qed.

Lemma pad_of_spec : forall d x,
  Z.of_nat (fst (pad_of d x)) = - Z.min x 0 /\
  Z.of_nat (fst (pad_of d x)) + Z.of_nat d + Z.of_nat (snd (pad_of d x)) =
    Z.max (Z.of_nat d) (x + 1) - Z.min x 0.
Proof.
  intros. unfold pad_of. destruct ((0 <=? x) && (x <? Z.of_nat d - 1)) eqn:E; simpl; [lia|].
  destruct (x <? 0) eqn:E2; simpl; lia.
Qed.

Lemma pads_fst : forall s y, length y = length s ->
  map (fun q => Z.of_nat (fst q)) (map (fun dx => pad_of (fst dx) (snd dx)) (combine s y))
  = map (fun z => - Z.min z 0) y.
Proof.
  induction s; destruct y; simpl; intros; try easy. f_equal; [apply pad_of_spec|]. apply IHs; lia.
Qed.

Lemma shp_padded : forall s y, length y = length s ->
  map Z.of_nat (map (fun dp => (fst (snd dp) + fst dp + snd (snd dp))%nat)
     (combine s (map (fun dx => pad_of (fst dx) (snd dx)) (combine s y))))
  = map (fun dz => Z.max (Z.of_nat (fst dz)) (snd dz + 1) - Z.min (snd dz) 0) (combine s y).
Proof.
  induction s; destruct y; simpl; intros; try easy. f_equal; [|apply IHs; lia].
  pose proof (pad_of_spec a z). lia.
Qed.

Lemma addv_opp_min : forall y,
  map (fun z => Z.max z 0) y = addv y (map (fun z => - Z.min z 0) y).
Proof. induction y; simpl; auto. rewrite IHy. f_equal. lia. Qed.

Lemma inb_padded : forall s y, length y = length s ->
  inb (map (fun dp => (fst (snd dp) + fst dp + snd (snd dp))%nat)
     (combine s (map (fun dx => pad_of (fst dx) (snd dx)) (combine s y)))) (map (fun z => Z.max z 0) y) = true.
Proof.
  induction s; destruct y; simpl; intros; try easy. rewrite IHs by lia.
  pose proof (pad_of_spec a z). rewrite andb_true_r. apply andb_true_iff. lia.
Qed.

(** Adding, in both branches, without any assumption of tightness. *)
Lemma add_raw : forall a mm m t loc,
  wf a -> (0 < length (shp a))%nat -> m < mm -> (t < ntypes a)%nat -> length loc = ndim a ->
  exists b, add_phonon (mkConfig a mm m) (Z.of_nat t :: loc) =
      Ok (mkConfig b mm (m + 1), SVec (map (fun z => - Z.min z 0) loc)) /\
    wf b /\ length (shp b) = length (shp a) /\ ntypes b = ntypes a /\
    (forall d, (d < ndim a)%nat -> Z.of_nat (nth (S d) (shp b) 0%nat) =
       Z.max (Z.of_nat (nth (S d) (shp a) 0%nat)) (nth d loc 0 + 1) - Z.min (nth d loc 0) 0) /\
    modified_by a b (map (fun z => Z.min z 0) loc) t loc 1 .
Proof.
  intros a mm m t loc W L Hm Ht Hl. unfold add_phonon. cbn [cfg max_mods mods].
  replace (m <? mm) with true by lia. cbn [guard bind].
  assert (Hlen : length (Z.of_nat t :: loc) = length (shp a)) by (simpl; unfold ndim in Hl; lia).
  rewrite (proj2 (Nat.eqb_eq _ _) Hlen). cbn [guard bind].
  unfold ntypes, ndim in *.
  destruct (shp a) as [|d s] eqn:Es; [simpl in L; lia|]. simpl in Hl, Ht.
  replace ((0 <=? Z.of_nat t) && (Z.of_nat t <=? Z.of_nat d - 1)) with true by lia. cbn [guard bind].
  destruct (inb s loc) eqn:Hin.
  - (* inside the cloud *)
    assert (Hall : Forall (fun z => 0 <= z) loc) by (apply inb_inr in Hin; tauto).
    assert (Hz : map (fun z => - Z.min z 0) loc = zerov (length loc)).
    { clear - Hall. induction Hall; simpl; auto. rewrite IHHall. unfold zerov. simpl. f_equal. lia. }
    assert (Hz' : map (fun z => Z.min z 0) loc = zerov (length loc)).
    { clear - Hall. induction Hall; simpl; auto. rewrite IHHall. unfold zerov. simpl. f_equal. lia. }
    rewrite Hz. exists (upd a (map Z.to_nat (Z.of_nat t :: loc)) 1).
    split; auto. split; [apply wf_upd|].
    rewrite shp_upd, Es. split; auto. split; auto. split.
    + intros k Hk. simpl in *.
      apply inb_nth in Hin. destruct Hin as [_ Hin]. specialize (Hin k ltac:(lia)). lia.
    + unfold modified_by, ntypes, ndim. rewrite shp_upd, Es. simpl.
      split; auto. split; auto. rewrite map_length. split; [auto|].
      intros t' x Hx. rewrite Hz'. rewrite addv_zerov by lia.
      rewrite Nat2Z.id. rewrite occ_upd.
      * rewrite map_of_to; auto.
      * rewrite Es. constructor; auto. apply inb_inr in Hin. tauto.
  - (* padding *)
    set (p := (0%nat, 0%nat) :: map (fun dx => pad_of (fst dx) (snd dx)) (combine s loc)).
    set (i := map (fun z => Z.to_nat (Z.max z 0)) (Z.of_nat t :: loc)).
    assert (Lp : length p = length (shp a)).
    { unfold p. rewrite Es. simpl. rewrite map_length, combine_length. lia. }
    assert (Sp : shp (pad a p) = d :: map (fun dp => (fst (snd dp) + fst dp + snd (snd dp))%nat)
     (combine s (map (fun dx => pad_of (fst dx) (snd dx)) (combine s loc)))).
    { unfold pad. simpl. rewrite Es. simpl. f_equal. lia. }
    assert (Hi : inr (shp (pad a p)) i).
    { apply inb_of. rewrite Sp. unfold i. simpl. 
      assert (E : map Z.of_nat (map (fun z => Z.to_nat (Z.max z 0)) loc) = map (fun z => Z.max z 0) loc).
      { rewrite map_map. apply map_ext. intros. lia. }
      rewrite E. rewrite inb_padded by lia. rewrite andb_true_r. apply andb_true_iff. lia. }
    exists (upd (pad a p) i 1). split; auto. split; [apply wf_upd|].
    rewrite shp_upd. split; [|split; [rewrite Sp; auto|split]].
    + rewrite length_shp_pad by auto. rewrite Es; auto.
    + intros k Hk. rewrite Sp. simpl.
      pose proof (shp_padded s loc ltac:(lia)) as E.
      apply (f_equal (fun l => nth k l 0)) in E.
      rewrite (map_nth Z.of_nat _ 0%nat) in E. rewrite E.
      rewrite nth_map_in with (d := (0%nat, 0)); [|rewrite combine_length; simpl in Hk; lia].
      rewrite combine_nth by lia. auto.
    + unfold modified_by, ntypes, ndim. rewrite shp_upd.
      split; [rewrite length_shp_pad; auto|].
      rewrite Sp, Es. simpl. split; auto. rewrite map_length. split; auto.
      intros t' x Hx. unfold i. cbn [map]. 
      rewrite occ_upd by (exact Hi).
      unfold occ at 1. rewrite at_pad; [|auto|rewrite Es; simpl; lia].
      f_equal.
      * unfold occ. f_equal. unfold p. cbn [map]. rewrite pads_fst by lia.
        unfold subv, oppv. simpl. f_equal; [lia|]. rewrite map_map. f_equal. apply map_ext; lia.
      * replace (Z.to_nat (Z.max (Z.of_nat t) 0)) with t by lia.
        assert (E : map Z.of_nat (map (fun z => Z.to_nat (Z.max z 0)) loc) = map (fun z => Z.max z 0) loc).
        { rewrite map_map. apply map_ext. intros. lia. }
        rewrite E.
        replace (eqlZ x (map (fun z => Z.max z 0) loc)) with
          (eqlZ (addv x (map (fun z => Z.min z 0) loc)) loc); auto.
        symmetry. destruct (eqlZ x (map (fun z => Z.max z 0) loc)) eqn:E1.
        -- apply eqlZ_eq in E1. symmetry. apply eqlZ_eq. subst. clear.
           induction loc; simpl; auto. f_equal; [lia|auto].
        -- destruct (eqlZ (addv x _) loc) eqn:E2; auto. apply eqlZ_eq in E2.
           exfalso. assert (x = map (fun z => Z.max z 0) loc); [|subst; rewrite (proj2 (eqlZ_eq _ _) eq_refl) in E1; easy].
           assert (Hx' : length x = length loc) by lia. clear - E2 Hx'. revert x E2 Hx'.
           induction loc; destruct x; simpl; intros; try easy. injection E2 as E2 E3.
           f_equal; [lia|]. apply IHloc; auto.
Qed.

(** A cloud after adding a phonon: totals. *)
Lemma modified_nonneg : forall a b s t loc e, (0 < length (shp a))%nat -> nonneg a -> 0 <= e ->
  modified_by a b s t loc e -> nonneg b.
Proof.
  intros a b s t loc e L N He [Hl [Ht [Hs H]]]. apply occ_nonneg; [lia|].
  intros t' x. destruct (Z.eq_dec (occ b t' x) 0) as [?|n]; [lia|].
  apply occ_length in n; [|lia].
  assert (Nd : ndim b = ndim a) by (unfold ndim; lia).
  rewrite H by lia. pose proof (N (Z.of_nat t' :: addv x s)). unfold occ.
  destruct (_ && _); lia.
Qed.

Lemma add_tight : forall a b t loc,
  tight a -> length loc = ndim a -> (0 < length (shp a))%nat -> nonneg a ->
  (forall d, (d < ndim a)%nat -> Z.of_nat (nth (S d) (shp b) 0%nat) =
       Z.max (Z.of_nat (nth (S d) (shp a) 0%nat)) (nth d loc 0 + 1) - Z.min (nth d loc 0) 0) ->
  modified_by a b (map (fun z => Z.min z 0) loc) t loc 1 -> tight b.
Proof.
  intros a b t loc Ta Hl La N Hsh Hm.
  pose proof Hm as [Hlen [Hnt [Hls Hocc]]].
  assert (Nd : ndim b = ndim a) by (unfold ndim; lia).
  intros d Hd. rewrite Nd in Hd.
  assert (Lm : length (map (fun z => Z.min z 0) loc) = ndim a) by (rewrite map_length; auto).
  assert (Nm : forall k, nth k (map (fun z => Z.min z 0) loc) 0 = Z.min (nth k loc 0) 0).
  { intros. apply (map_nth (fun z => Z.min z 0) loc 0 k). }
  (* old occupied slabs move *)
  assert (Hold : forall p, occupied_slab a d p -> occupied_slab b d (p - Z.min (nth d loc 0) 0)).
  { intros p [t' [x [Lx [Px Ox]]]].
    exists t', (subv x (map (fun z => Z.min z 0) loc)).
    rewrite length_subv by lia. split; [lia|]. split.
    - rewrite nth_subv, Nm by lia. lia.
    - rewrite Hocc by (rewrite length_subv; lia). rewrite addv_subv by lia.
      destruct (_ && _); lia. }
  (* the new phonon *)
  assert (Hnew : occupied_slab b d (nth d loc 0 - Z.min (nth d loc 0) 0)).
  { exists t, (subv loc (map (fun z => Z.min z 0) loc)).
    rewrite length_subv by lia. split; [lia|]. split.
    - rewrite nth_subv, Nm by lia. lia.
    - rewrite Hocc by (rewrite length_subv; lia). rewrite addv_subv by lia.
      rewrite Nat.eqb_refl, (proj2 (eqlZ_eq loc loc) eq_refl). simpl.
      pose proof (N (Z.of_nat t :: loc)). unfold occ. lia. }
  destruct (Ta d Hd) as [T1 T2]. apply Hold in T1, T2.
  rewrite Hsh by auto.
  pose proof (Hsh d Hd) as Hd'.
  assert (1 <= Z.of_nat (nth (S d) (shp a) 0%nat)).
  { destruct (Ta d Hd) as [T _]. pose proof (occupied_slab_range _ _ _ T Hd). lia. }
  split.
  - destruct (Z_lt_ge_dec (nth d loc 0) 0).
    + replace 0 with (nth d loc 0 - Z.min (nth d loc 0) 0) at 1 by lia. auto.
    + replace 0 with (0 - Z.min (nth d loc 0) 0) at 1 by lia. auto.
  - destruct (Z_lt_ge_dec (nth d loc 0) (Z.of_nat (nth (S d) (shp a) 0%nat))).
    + replace (Z.max (Z.of_nat (nth (S d) (shp a) 0%nat)) (nth d loc 0 + 1) - Z.min (nth d loc 0) 0 - 1)
        with (Z.of_nat (nth (S d) (shp a) 0%nat) - 1 - Z.min (nth d loc 0) 0) by lia. auto.
    + replace (Z.max (Z.of_nat (nth (S d) (shp a) 0%nat)) (nth d loc 0 + 1) - Z.min (nth d loc 0) 0 - 1)
        with (nth d loc 0 - Z.min (nth d loc 0) 0) by lia. auto.
Qed.


(** C03 *)
Lemma add_spec : forall a mm m t loc,
  valid_cloud a -> ~ phonon_free a -> m < mm -> (t < ntypes a)%nat -> length loc = ndim a ->
  exists b s, add_phonon (mkConfig a mm m) (Z.of_nat t :: loc) = Ok (mkConfig b mm (m + 1), SVec s) /\
    valid_cloud b /\ modified_by a b (oppv s) t loc 1 /\
    total b = total a + 1 /\ s = map (fun z => Z.max (- z) 0) loc /\
    (forall d, (d < ndim a)%nat -> Z.of_nat (nth (S d) (shp b) 0%nat) =
       Z.max (Z.of_nat (nth (S d) (shp a) 0%nat)) (nth d loc 0 + 1) - Z.min (nth d loc 0) 0).
Proof.
  intros a mm m t loc V NF Hm Ht Hl.
  pose proof (valid_rank _ V) as R. pose proof (valid_wf _ V) as W. pose proof (valid_nonneg _ V) as N.
  destruct (add_raw a mm m t loc) as [b [E [Wb [Lb [Tb [Sb Mb]]]]]]; auto; try lia.
  exists b, (map (fun z => Z.max (- z) 0) loc).
  assert (Es : map (fun z => - Z.min z 0) loc = map (fun z => Z.max (- z) 0) loc) by (apply map_ext; lia).
  assert (Eo : oppv (map (fun z => Z.max (- z) 0) loc) = map (fun z => Z.min z 0) loc).
  { unfold oppv. rewrite map_map. apply map_ext. lia. }
  rewrite E, Es, Eo. split; auto.
  assert (Tt : total b = total a + 1) by (eapply modified_total; eauto; lia).
  split; [|auto].
  apply valid_intro; auto; try lia.
  - apply (modified_nonneg a b (map (fun z => Z.min z 0) loc) t loc 1); auto; lia.
  - right. assert (0 < total a).
    { pose proof (total_nonneg _ W N). destruct (Z.eq_dec (total a) 0); [|lia].
      exfalso. apply NF. apply phonon_free_total; auto; lia. }
    eapply add_tight; eauto; try lia. apply valid_tight; auto.
Qed.

(** A tight cloud is determined by its occupation up to translation. *)
Lemma tight_unique : forall a b s, wf a -> wf b -> (2 <= length (shp a))%nat ->
  tight a -> tight b -> length (shp b) = length (shp a) -> ntypes b = ntypes a ->
  length s = ndim a ->
  (forall t x, length x = ndim a -> occ b t x = occ a t (addv x s)) ->
  s = zerov (ndim a) /\ b = a.
Proof.
  intros a b s Wa Wb Ra Ta Tb Hl Ht Hs H.
  assert (Nd : ndim b = ndim a) by (unfold ndim; lia).
  assert (Hab : forall d p, occupied_slab a d p -> occupied_slab b d (p - nth d s 0)).
  { intros d p [t [x [Lx [Px Ox]]]]. exists t, (subv x s). rewrite length_subv by lia.
    split; [lia|]. rewrite nth_subv by lia. split; [lia|].
    rewrite H by (rewrite length_subv; lia). rewrite addv_subv by lia. auto. }
  assert (Hba : forall d p, occupied_slab b d p -> occupied_slab a d (p + nth d s 0)).
  { intros d p [t [x [Lx [Px Ox]]]]. exists t, (addv x s). rewrite length_addv by lia.
    split; [lia|]. rewrite nth_addv by lia. split; [lia|]. rewrite <- H by lia. auto. }
  assert (Hd : forall d, (d < ndim a)%nat -> nth d s 0 = 0 /\ nth (S d) (shp b) 0%nat = nth (S d) (shp a) 0%nat).
  { intros d Hd. destruct (Ta d Hd) as [A1 A2]. destruct (Tb d ltac:(lia)) as [B1 B2].
    pose proof (occupied_slab_range _ _ _ (Hab _ _ A1) ltac:(lia)).
    pose proof (occupied_slab_range _ _ _ (Hba _ _ B1) ltac:(lia)).
    pose proof (occupied_slab_range _ _ _ (Hab _ _ A2) ltac:(lia)).
    pose proof (occupied_slab_range _ _ _ (Hba _ _ B2) ltac:(lia)).
    lia. }
  assert (Es : s = zerov (ndim a)).
  { apply vec_ext; [rewrite length_zerov; auto|]. intros n. rewrite nth_zerov.
    destruct (Nat.lt_ge_cases n (ndim a)); [apply Hd; auto|]. apply nth_overflow. lia. }
  split; auto. subst s.
  assert (Esh : shp b = shp a).
  { apply nth_ext with (d := 0%nat) (d' := 0%nat); auto. intros n Hn.
    destruct n.
    - unfold ntypes in Ht. destruct (shp a), (shp b); simpl in *; auto; lia.
    - apply Hd. unfold ndim; lia. }
  apply at_ext; auto. intros x.
  destruct (Nat.eq_dec (length x) (length (shp a))) as [Lx|Lx].
  - destruct x as [|x0 x]; [simpl in Lx; lia|].
    destruct (Z_lt_ge_dec x0 0).
    + unfold at_. rewrite Esh. destruct (inb (shp a) (x0 :: x)) eqn:E; auto.
      destruct (shp a); simpl in E; [easy|]. lia.
    + replace x0 with (Z.of_nat (Z.to_nat x0)) by lia.
      change (occ b (Z.to_nat x0) x = occ a (Z.to_nat x0) x).
      rewrite H by (unfold ndim; simpl in Lx; lia). rewrite addv_zerov; auto.
      unfold ndim; simpl in Lx; lia.
  - destruct (Z.eq_dec (at_ b x) 0) as [->|E]; [|apply at_length in E; lia].
    destruct (Z.eq_dec (at_ a x) 0) as [->|E]; [auto|apply at_length in E; lia].
Qed.

Lemma valid_not_free_pos : forall a, valid_cloud a -> ~ phonon_free a -> 0 < total a.
Proof.
  intros a V NF. pose proof (total_nonneg _ (valid_wf _ V) (valid_nonneg _ V)).
  destruct (Z.eq_dec (total a) 0); [|lia]. exfalso. apply NF.
  pose proof (valid_rank _ V).
  apply phonon_free_total; auto; [apply valid_wf; auto|lia|apply valid_nonneg; auto].
Qed.

Lemma pos_not_free : forall a, valid_cloud a -> 0 < total a -> ~ phonon_free a.
Proof.
  intros a V T F. pose proof (valid_rank _ V).
  apply phonon_free_total in F; [lia|apply valid_wf; auto|lia|apply valid_nonneg; auto].
Qed.

Lemma oppv_oppv : forall s, oppv (oppv s) = s.
Proof. intros. unfold oppv. rewrite map_map. rewrite <- (map_id s) at 2. apply map_ext. lia. Qed.

Lemma subv_oppv : forall x s, subv x (oppv s) = addv x s.
Proof. intros. unfold subv. rewrite oppv_oppv. auto. Qed.

Lemma addv_oppv_cancel : forall x s, length x = length s -> addv (addv x s) (oppv s) = x.
Proof. intros. apply (subv_addv x s). auto. Qed.

(** C04, first half *)
Lemma add_remove : forall a mm m t loc,
  valid_cloud a -> ~ phonon_free a -> m + 1 < mm -> (t < ntypes a)%nat -> length loc = ndim a ->
  exists b s, add_phonon (mkConfig a mm m) (Z.of_nat t :: loc) = Ok (mkConfig b mm (m + 1), SVec s) /\
    remove_phonon (mkConfig b mm (m + 1)) (Z.of_nat t :: addv loc s) = Ok (mkConfig a mm (m + 2), SVec s).
Proof.
  intros a mm m t loc V NF Hm Ht Hl.
  destruct (add_spec a mm m t loc) as [b [s [E [Vb [Mb [Tb [Es _]]]]]]]; auto; try lia.
  exists b, s. split; auto.
  assert (Ls : length s = ndim a) by (subst s; rewrite map_length; auto).
  destruct Mb as [Lb [Ntb [_ Mb]]].
  assert (Nd : ndim b = ndim a) by (unfold ndim; lia).
  assert (Ob : forall t' x, length x = ndim a -> occ b t' (addv x s) = occ a t' x + (if Nat.eqb t' t && eqlZ x loc then 1 else 0)).
  { intros. rewrite Mb by (rewrite length_addv; lia). rewrite addv_oppv_cancel by lia. auto. }
  assert (Pos : 0 < occ b t (addv loc s)).
  { rewrite Ob by auto. rewrite Nat.eqb_refl, (proj2 (eqlZ_eq loc loc) eq_refl). simpl.
    pose proof (valid_nonneg _ V (Z.of_nat t :: loc)). unfold occ. lia. }
  destruct (remove_spec b mm (m + 1) t (addv loc s)) as [c [s' [E' [Vc [Mc [Tc [Ps Z0]]]]]]]; auto.
  pose proof (valid_not_free_pos _ V NF).
  assert (exists v, s' = SVec v /\ length v = ndim a).
  { destruct Mc as [_ [_ [L _]]]. destruct s' as [z|v]; [|exists v; simpl in L; split; auto; lia].
    (* the scalar shift only occurs for the vacuum *)
    exfalso. revert E'. unfold remove_phonon. cbn [cfg max_mods mods].
    destruct (guard _ _); [|discriminate]. cbn [bind].
    destruct (guard _ _); [|discriminate]. cbn [bind].
    destruct (norm_indexes _ _); [|discriminate].
    destruct (guard _ _); [|discriminate]. cbn [bind].
    unfold reduction_rules. destruct (total (upd b l (-1)) =? 0) eqn:Et.
    - cbn [bind fst snd]. intros Q. injection Q as Q1 Q2. subst c. lia.
    - destruct (reduce_loop _ _ _ _); cbn [bind fst snd]; intros Q; discriminate Q. }
  destruct H0 as [v [-> Lv]]. cbn [shift_vec] in *.
  destruct Mc as [Lc [Ntc [_ Mc]]].
  assert (Hc : forall t' x, length x = ndim a -> occ c t' x = occ a t' (addv x (subv v s))).
  { intros t' x Hx. rewrite Mc by lia.
    assert (Ev : addv x v = addv (addv x (subv v s)) s).
    { rewrite addv_assoc by (rewrite ?length_subv; lia). rewrite addv_subv by lia. auto. }
    rewrite Ev. rewrite Ob by (rewrite length_addv; rewrite ?length_subv; lia).
    assert (Eq : eqlZ (addv (addv x (subv v s)) s) (addv loc s) = eqlZ (addv x (subv v s)) loc).
    { destruct (eqlZ (addv x (subv v s)) loc) eqn:Q.
      - apply eqlZ_eq in Q. rewrite Q. apply eqlZ_eq; auto.
      - destruct (eqlZ (addv (addv x (subv v s)) s) (addv loc s)) eqn:Q2; auto.
        apply eqlZ_eq in Q2. apply addv_inj in Q2; try lia.
        + rewrite Q2 in Q. rewrite (proj2 (eqlZ_eq loc loc) eq_refl) in Q. easy.
        + rewrite length_addv; rewrite ?length_subv; lia. }
    rewrite Eq. destruct (_ && _); lia. }
  destruct (tight_unique a c (subv v s)) as [E0 E1]; auto; try lia.
  - apply valid_wf; auto.
  - apply valid_wf; auto.
  - apply valid_rank; auto.
  - apply valid_tight; auto.
  - apply valid_tight; auto. lia.
  - rewrite length_subv; lia.
  - subst c. rewrite E'. replace (m + 1 + 1) with (m + 2) by lia.
    assert (Q : v = s); [|rewrite Q; auto].
    rewrite <- (addv_subv v s) by lia. rewrite E0. rewrite addv_comm by (rewrite length_zerov; lia).
    apply addv_zerov; auto.
Qed.

(** C04, second half *)
Lemma remove_add : forall a mm m t loc,
  valid_cloud a -> 1 < total a -> m + 1 < mm -> 0 < occ a t loc ->
  exists b s, remove_phonon (mkConfig a mm m) (Z.of_nat t :: loc) = Ok (mkConfig b mm (m + 1), s) /\
    exists v, s = SVec v /\
    add_phonon (mkConfig b mm (m + 1)) (Z.of_nat t :: subv loc v) = Ok (mkConfig a mm (m + 2), SVec v).
Proof.
  intros a mm m t loc V HT Hm Ho.
  pose proof (valid_rank _ V) as R.
  assert (Hl : length loc = ndim a) by (apply occ_length with (t := t); lia).
  assert (Ht : (t < ntypes a)%nat).
  { assert (Hz : at_ a (Z.of_nat t :: loc) <> 0) by (unfold occ in Ho; lia).
    apply at_head in Hz; [|lia]. destruct Hz as [t' [y [Q [? ?]]]]. injection Q as Q1 Q2.
    apply Nat2Z.inj in Q1. lia. }
  destruct (remove_spec a mm m t loc) as [b [s [E [Vb [Mb [Tb [Ps Z0]]]]]]]; auto; try lia.
  exists b, s. split; auto.
  assert (exists v, s = SVec v).
  { destruct s as [z|v]; [|eauto].
    exfalso. revert E. unfold remove_phonon. cbn [cfg max_mods mods].
    destruct (guard _ _); [|discriminate]. cbn [bind].
    destruct (guard _ _); [|discriminate]. cbn [bind].
    destruct (norm_indexes _ _); [|discriminate].
    destruct (guard _ _); [|discriminate]. cbn [bind].
    unfold reduction_rules. destruct (total (upd a l (-1)) =? 0) eqn:Et.
    - cbn [bind fst snd]. intros Q. injection Q as Q1 Q2. subst b. lia.
    - destruct (reduce_loop _ _ _ _); cbn [bind fst snd]; intros Q; discriminate Q. }
  destruct H as [v ->]. exists v. split; auto. cbn [shift_vec] in *.
  destruct Mb as [Lb [Ntb [Lv Mb]]].
  assert (Nd : ndim b = ndim a) by (unfold ndim; lia).
  assert (NFb : ~ phonon_free b) by (apply pos_not_free; auto; lia).
  destruct (add_spec b mm (m + 1) t (subv loc v)) as [c [w [E' [Vc [Mc [Tc [Ew _]]]]]]]; auto; try lia.
  { rewrite length_subv; lia. }
  assert (Lw : length w = ndim a) by (subst w; rewrite map_length, length_subv; lia).
  destruct Mc as [Lc [Ntc [_ Mc]]].
  assert (Hc : forall t' x, length x = ndim a -> occ c t' x = occ a t' (addv x (subv v w))).
  { intros t' x Hx. rewrite Mc by lia. rewrite Mb by (rewrite length_addv; rewrite ?length_oppv; lia).
    assert (Ev : addv (addv x (oppv w)) v = addv x (subv v w)).
    { rewrite addv_assoc by (rewrite ?length_oppv; lia). f_equal. unfold subv.
      apply addv_comm. rewrite length_oppv; lia. }
    rewrite Ev.
    assert (Eq : eqlZ (addv x (oppv w)) (subv loc v) = eqlZ (addv x (subv v w)) loc).
    { rewrite <- Ev. destruct (eqlZ (addv x (oppv w)) (subv loc v)) eqn:Q.
      - apply eqlZ_eq in Q. rewrite Q. rewrite addv_subv by lia. symmetry. apply eqlZ_eq; auto.
      - destruct (eqlZ (addv (addv x (oppv w)) v) loc) eqn:Q2; auto.
        apply eqlZ_eq in Q2. rewrite <- Q2 in Q.
        rewrite subv_addv in Q by (rewrite length_addv; rewrite ?length_oppv; lia).
        rewrite (proj2 (eqlZ_eq _ _) eq_refl) in Q. easy. }
    rewrite Eq. destruct (_ && _); lia. }
  destruct (tight_unique a c (subv v w)) as [E0 E1]; auto; try lia.
  - apply valid_wf; auto.
  - apply valid_wf; auto.
  - apply valid_tight; auto; lia.
  - apply valid_tight; auto. lia.
  - rewrite length_subv; lia.
  - subst c. rewrite E'. replace (m + 1 + 1) with (m + 2) by lia.
    assert (Q : w = v); [|rewrite Q; auto].
    rewrite <- (addv_subv v w) by lia. rewrite E0. rewrite addv_comm by (rewrite length_zerov; lia).
    symmetry. apply addv_zerov; auto.
Qed.
