(** Lemmas about validation, removal and addition of phonons. *)
From Coq Require Import ZArith List Bool Lia Permutation.
From Verif Require Import Base NdArray NdArray_proofs Config Spec Spec_ops.
Import ListNotations.
Open Scope Z_scope.

(* ---------- generic ---------- *)

Lemma lmax_ge : forall l x, In x l -> (x <= lmax l)%nat.
Proof. induction l; simpl; intros; [easy|]. destruct H; [lia|]. specialize (IHl _ H). lia. Qed.

Lemma lmax_In : forall l, l <> [] -> In (lmax l) l.
Proof.
  induction l; simpl; intros; [easy|]. destruct l.
  - simpl; left; lia.
  - destruct (Nat.max_dec a (lmax (n :: l))) as [E|E]; rewrite E; auto.
    right. apply IHl. easy.
Qed.

Lemma lmin_le : forall l x, In x l -> (lmin l <= x)%nat.
Proof.
  destruct l; simpl; intros; [easy|]. destruct H.
  - subst. clear. induction l; simpl; lia.
  - revert H; clear; induction l; simpl; intros; [easy|]. destruct H; [lia|]. specialize (IHl H); lia.
Qed.

Lemma lmin_In : forall l, l <> [] -> In (lmin l) l.
Proof.
  destruct l; intros; [easy|]. simpl. clear H. induction l; simpl; auto.
  destruct (Nat.min_dec a (fold_right Nat.min n l)) as [E|E]; rewrite E; tauto.
Qed.

Definition nonneg (a : nd) : Prop := forall x, 0 <= at_ a x.

Lemma nonneg_values : forall a, wf a -> config_values_legal a = true <-> nonneg a.
Proof.
  intros. unfold config_values_legal. rewrite forallb_forall. split; intros.
  - intros x. unfold at_. destruct (inb (shp a) x) eqn:E; [|lia].
    apply inb_inr in E. specialize (H0 (get a (map Z.to_nat x))).
    assert (0 <=? get a (map Z.to_nat x) = true); [|lia].
    apply H0. apply dat_In_get; auto. exists (map Z.to_nat x). tauto.
  - apply dat_In_get in H1; auto. destruct H1 as [i [? ?]].
    specialize (H0 (map Z.of_nat i)). rewrite at_of in H0; auto. lia.
Qed.

Lemma nonneg_get : forall a i, nonneg a -> inr (shp a) i -> 0 <= get a i.
Proof. intros. rewrite <- at_of; auto. Qed.

Lemma nonneg_Forall : forall a, wf a -> nonneg a -> Forall (fun x => 0 <= x) (dat a).
Proof.
  intros. apply Forall_forall. intros. apply dat_In_get in H1; auto.
  destruct H1 as [i [? ?]]. subst. apply nonneg_get; auto.
Qed.

Lemma total_nonneg : forall a, wf a -> nonneg a -> 0 <= total a.
Proof. intros. apply sumZ_nonneg. apply nonneg_Forall; auto. Qed.

Lemma total_zero : forall a, wf a -> nonneg a -> total a = 0 -> forall x, at_ a x = 0.
Proof.
  intros. destruct (Z.eq_dec (at_ a x) 0); auto. apply at_nz in n.
  destruct n as [i [? [? ?]]].
  pose proof (sumZ_zero_all _ (nonneg_Forall _ H H0) H1).
  rewrite Forall_forall in H5. rewrite <- H4. apply H5. apply dat_In_get; eauto.
Qed.

Lemma zero_total : forall a, wf a -> (forall x, at_ a x = 0) -> total a = 0.
Proof.
  intros. apply sumZ_all_zero. apply Forall_forall. intros.
  apply dat_In_get in H1; auto. destruct H1 as [i [? ?]].
  rewrite <- at_of in H2; auto. rewrite H0 in H2. auto.
Qed.

Lemma total_pos_ex : forall a, wf a -> 0 < total a -> exists x, 0 < at_ a x.
Proof.
  intros. apply sumZ_pos_ex in H0. destruct H0 as [v [? ?]].
  apply dat_In_get in H0; auto. destruct H0 as [i [? ?]].
  exists (map Z.of_nat i). rewrite at_of; auto. lia.
Qed.

Lemma total_pos : forall a x, wf a -> nonneg a -> 0 < at_ a x -> 0 < total a.
Proof.
  intros. pose proof (total_nonneg _ H H0).
  destruct (Z.eq_dec (total a) 0); [|lia].
  rewrite (total_zero a H H0 e) in H1. lia.
Qed.

Lemma at_length : forall a x, at_ a x <> 0 -> length x = length (shp a).
Proof. intros. apply at_nz in H. destruct H as [i [? [? ?]]]. subst. rewrite map_length. apply inr_length; auto. Qed.

Lemma at_head : forall a x, at_ a x <> 0 -> (0 < length (shp a))%nat ->
  exists t y, x = Z.of_nat t :: y /\ (t < ntypes a)%nat /\ length y = ndim a.
Proof.
  intros. pose proof (at_length _ _ H). apply at_nz in H. destruct H as [i [? [? ?]]].
  unfold ntypes, ndim in *. destruct (shp a); simpl in *; [lia|].
  destruct i; [inversion H|]. inversion H; subst. exists n0, (map Z.of_nat i).
  simpl. auto.
Qed.

(* ---------- the anchor ---------- *)

Lemma wf_sum0 : forall a, wf (sum0 a).
Proof. intros; apply wf_tab. Qed.

Lemma shp_sum0 : forall a, shp (sum0 a) = tl (shp a).
Proof. auto. Qed.

Lemma get_sum0 : forall a i, inr (tl (shp a)) i ->
  get (sum0 a) i = sumZ (map (fun t => get a (t :: i)) (seq 0 (ntypes a))).
Proof. intros. unfold sum0. rewrite get_tab; auto. Qed.

Lemma inr_cons : forall a t i, (0 < length (shp a))%nat -> (t < ntypes a)%nat ->
  inr (tl (shp a)) i -> inr (shp a) (t :: i).
Proof. unfold ntypes. intros. destruct (shp a); simpl in *; [lia|]. constructor; auto. Qed.

Lemma inr_uncons : forall a i, (0 < length (shp a))%nat -> inr (shp a) i ->
  exists t j, i = t :: j /\ (t < ntypes a)%nat /\ inr (tl (shp a)) j.
Proof.
  unfold ntypes. intros. destruct (shp a); simpl in *; [lia|]. inversion H0; subst.
  exists y, l'. auto.
Qed.

Lemma sum0_nonneg : forall a i, nonneg a -> (0 < length (shp a))%nat -> inr (tl (shp a)) i ->
  0 <= get (sum0 a) i.
Proof.
  intros. rewrite get_sum0; auto. apply sumZ_nonneg. apply Forall_forall. intros.
  apply in_map_iff in H2. destruct H2 as [t [? ?]]. subst. apply in_seq in H3.
  apply nonneg_get; auto. apply inr_cons; auto. lia.
Qed.

Lemma sum0_pos : forall a i, nonneg a -> (0 < length (shp a))%nat -> inr (tl (shp a)) i ->
  (0 < get (sum0 a) i <-> exists t, 0 < occ a t (map Z.of_nat i)).
Proof.
  intros. rewrite get_sum0; auto. split; intros.
  - apply sumZ_pos_ex in H2. destruct H2 as [v [? ?]]. apply in_map_iff in H2.
    destruct H2 as [t [? ?]]. apply in_seq in H4. exists t. unfold occ.
    change (Z.of_nat t :: map Z.of_nat i) with (map Z.of_nat (t :: i)).
    rewrite at_of; [lia|]. apply inr_cons; auto; lia.
  - destruct H2 as [t Ht]. unfold occ in Ht.
    change (Z.of_nat t :: map Z.of_nat i) with (map Z.of_nat (t :: i)) in Ht.
    assert (inr (shp a) (t :: i)).
    { apply inb_of. unfold at_ in Ht. destruct (inb _ _); auto; lia. }
    rewrite at_of in Ht; auto.
    assert (Hle : get a (t :: i) <= sumZ (map (fun t => get a (t :: i)) (seq 0 (ntypes a)))).
    { apply sumZ_In_le.
      - apply Forall_forall. intros. apply in_map_iff in H3. destruct H3 as [t' [? ?]]. subst.
        apply in_seq in H4. apply nonneg_get; auto. apply inr_cons; auto. lia.
      - apply in_map_iff. exists t. split; auto. apply in_seq.
        apply inr_uncons in H2; auto. destruct H2 as [t' [j [? [? ?]]]]. inversion H2; subst. lia. }
    lia.
Qed.

(** The slabs of the anchor that carry phonons. *)
Lemma occupied_slab_anchor : forall a d p, nonneg a -> (0 < length (shp a))%nat ->
  (d < ndim a)%nat ->
  (occupied_slab a d (Z.of_nat p) <->
   exists i, inr (tl (shp a)) i /\ nth d i 0%nat = p /\ 0 < get (sum0 a) i).
Proof.
  intros a d p Hn Hl Hd. split.
  - intros [t [x [Hx [Hp Ho]]]]. unfold occ in Ho.
    assert (Hnz : at_ a (Z.of_nat t :: x) <> 0) by lia.
    apply at_nz in Hnz. destruct Hnz as [i [Hi [E G]]].
    apply inr_uncons in Hi; auto. destruct Hi as [t' [j [-> [Ht Hj]]]].
    simpl in E. inversion E. assert (t = t') by lia. subst.
    exists j. split; auto. split.
    + apply Nat2Z.inj. rewrite <- Hp. symmetry. apply (map_nth Z.of_nat j 0%nat d).
    + apply sum0_pos; auto. exists t'. auto.
  - intros [i [Hi [Hp Ho]]]. apply sum0_pos in Ho; auto. destruct Ho as [t Ht].
    exists t, (map Z.of_nat i). split; [|split; auto].
    + rewrite map_length. apply inr_length in Hi. rewrite Hi.
      unfold ndim. destruct (shp a); simpl in *; lia.
    + subst. apply (map_nth Z.of_nat i 0%nat d).
Qed.

Lemma slab_sum_occ : forall a d p, nonneg a -> (0 < length (shp a))%nat ->
  (d < ndim a)%nat ->
  (slab_sum (sum0 a) d p =? 0) = false <-> occupied_slab a d (Z.of_nat p).
Proof.
  intros. rewrite occupied_slab_anchor; auto. unfold slab_sum. rewrite shp_sum0.
  assert (Hnn : Forall (fun x => 0 <= x) (map (get (sum0 a))
     (filter (fun i => Nat.eqb (nth d i 0%nat) p) (all_idx (tl (shp a)))))).
  { apply Forall_forall. intros. apply in_map_iff in H2. destruct H2 as [i [? ?]].
    apply filter_In in H3. destruct H3. apply In_all_idx in H3. subst. apply sum0_nonneg; auto. }
  pose proof (sumZ_nonneg _ Hnn). rewrite Z.eqb_neq. split.
  - intros. assert (0 < sumZ (map (get (sum0 a))
     (filter (fun i => Nat.eqb (nth d i 0%nat) p) (all_idx (tl (shp a)))))) by lia.
    apply sumZ_pos_ex in H4. destruct H4 as [v [Hv ?]]. apply in_map_iff in Hv.
    destruct Hv as [i [? Hi]]. apply filter_In in Hi. destruct Hi as [Hi Hp].
    apply In_all_idx in Hi. exists i. split; auto. split; [apply Nat.eqb_eq; auto|lia].
  - intros [i [Hi [Hp Ho]]].
    assert (get (sum0 a) i <= sumZ (map (get (sum0 a))
     (filter (fun i => Nat.eqb (nth d i 0%nat) p) (all_idx (tl (shp a)))))); [|lia].
    apply sumZ_In_le; auto. apply in_map. apply filter_In. split; [apply In_all_idx; auto|].
    apply Nat.eqb_eq; auto.
Qed.

Lemma where_pos_occ : forall a d p, nonneg a -> (0 < length (shp a))%nat ->
  (d < ndim a)%nat ->
  (In p (where_pos (sum0 a) d) <-> occupied_slab a d (Z.of_nat p)).
Proof.
  intros. rewrite occupied_slab_anchor; auto. unfold where_pos. rewrite shp_sum0.
  rewrite in_map_iff. split.
  - intros [i [? Hi]]. apply filter_In in Hi. destruct Hi as [Hi Hp].
    apply In_all_idx in Hi. exists i. split; auto. split; auto. lia.
  - intros [i [? [? ?]]]. exists i. split; auto. apply filter_In. rewrite In_all_idx.
    split; auto. lia.
Qed.

(** An occupied slab lies inside the box. *)
Lemma occupied_slab_range : forall a d p, occupied_slab a d p -> (d < ndim a)%nat ->
  0 <= p < Z.of_nat (nth (S d) (shp a) 0%nat).
Proof.
  intros a d p [t [x [Hx [Hp Ho]]]] Hd. unfold occ in Ho. unfold at_ in Ho.
  destruct (inb (shp a) (Z.of_nat t :: x)) eqn:E; [|lia].
  apply inb_nth in E. destruct E as [E1 E2]. specialize (E2 (S d)).
  simpl in E2. rewrite <- Hp. apply E2. unfold ndim in Hd. lia.
Qed.

Lemma length_tl_shp : forall a, length (tl (shp a)) = ndim a.
Proof. intros. unfold ndim. destruct (shp a); auto. Qed.

Lemma nth_tl_shp : forall a d, nth d (tl (shp a)) 0%nat = nth (S d) (shp a) 0%nat.
Proof. intros. destruct (shp a); simpl; auto. destruct d; auto. Qed.

Lemma total_pos_slab : forall a d, wf a -> nonneg a -> 0 < total a -> (2 <= length (shp a))%nat ->
  (d < ndim a)%nat -> exists p, occupied_slab a d (Z.of_nat p).
Proof.
  intros. apply total_pos_ex in H1; auto. destruct H1 as [x Hx].
  assert (Hz : at_ a x <> 0) by lia. pose proof (at_head _ _ Hz).
  destruct H1 as [t [y [-> [? ?]]]]; [lia|].
  assert (occupied_slab a d (nth d y 0)).
  { exists t, y. auto. }
  pose proof (occupied_slab_range _ _ _ H5 H3).
  exists (Z.to_nat (nth d y 0)). replace (Z.of_nat (Z.to_nat (nth d y 0))) with (nth d y 0) by lia.
  auto.
Qed.

Definition tight_on (a : nd) (d : nat) : Prop :=
  occupied_slab a d 0 /\
  occupied_slab a d (Z.of_nat (nth (S d) (shp a) 0%nat) - 1).

Lemma edges_loop_spec : forall a axs, wf a -> nonneg a -> 0 < total a -> (2 <= length (shp a))%nat ->
  Forall (fun d => d < ndim a)%nat axs ->
  exists b, edges_loop (sum0 a) axs = Ok b /\
    (b = true <-> Forall (tight_on a) axs).
Proof.
  induction axs; intros; cbn [edges_loop].
  - exists true. split; auto. split; auto.
  - inversion H3; subst. rewrite shp_sum0, nth_tl_shp.
    destruct (total_pos_slab a a0) as [p Hp]; auto.
    pose proof (occupied_slab_range _ _ _ Hp H6).
    destruct (Nat.eqb_spec (nth (S a0) (shp a) 0%nat) 0); [lia|].
    destruct IHaxs as [b [E Hb]]; auto. rewrite E.
    pose proof (slab_sum_occ a a0 0 H0 ltac:(lia) H6).
    pose proof (slab_sum_occ a a0 (nth (S a0) (shp a) 0%nat - 1) H0 ltac:(lia) H6).
    replace (Z.of_nat (nth (S a0) (shp a) 0%nat - 1)) with (Z.of_nat (nth (S a0) (shp a) 0%nat) - 1) in H8 by lia.
    change (Z.of_nat 0) with 0 in H5.
    destruct (slab_sum (sum0 a) a0 0 =? 0) eqn:E1.
    + exists false. split; auto. split; [easy|]. intros F. inversion F; subst.
      destruct H11. apply H5 in H9. easy.
    + destruct (slab_sum (sum0 a) a0 (nth (S a0) (shp a) 0%nat - 1) =? 0) eqn:E2.
      * exists false. split; auto. split; [easy|]. intros F. inversion F; subst.
        destruct H11. apply H8 in H10. easy.
      * exists b. split; auto. rewrite Hb. split; intros.
        -- constructor; auto. split; tauto.
        -- inversion H9; auto.
Qed.

Lemma tight_forall : forall a, tight a <-> Forall (tight_on a) (seq 0 (ndim a)).
Proof.
  intros. rewrite Forall_forall. unfold tight, tight_on. split; intros.
  - apply H. apply in_seq in H0. lia.
  - apply H. apply in_seq. lia.
Qed.

Lemma edges_legal_spec : forall a, wf a -> nonneg a -> 0 < total a -> (2 <= length (shp a))%nat ->
  exists b, config_edges_legal a = Ok b /\ (b = true <-> tight a).
Proof.
  intros. unfold config_edges_legal. rewrite shp_sum0, length_tl_shp.
  destruct (edges_loop_spec a (seq 0 (ndim a))) as [b [E Hb]]; auto.
  - apply Forall_forall. intros. apply in_seq in H3. lia.
  - exists b. split; auto. rewrite tight_forall. auto.
Qed.

Lemma occ_nonneg : forall a, (0 < length (shp a))%nat -> (nonneg a <-> forall t x, 0 <= occ a t x).
Proof.
  intros. split; intros.
  - apply H0.
  - intros x. destruct (Z.eq_dec (at_ a x) 0); [lia|].
    apply at_head in n; auto. destruct n as [t [y [-> _]]]. apply H0.
Qed.

Lemma phonon_free_at : forall a, (0 < length (shp a))%nat -> (phonon_free a <-> forall x, at_ a x = 0).
Proof.
  intros. split; intros.
  - destruct (Z.eq_dec (at_ a x) 0); [lia|].
    apply at_head in n; auto. destruct n as [t [y [-> _]]]. apply H0.
  - intros t x. apply H0.
Qed.

Lemma phonon_free_total : forall a, wf a -> (0 < length (shp a))%nat -> nonneg a ->
  (phonon_free a <-> total a = 0).
Proof.
  intros. rewrite phonon_free_at; auto. split; intros.
  - apply zero_total; auto.
  - apply total_zero; auto.
Qed.

Lemma tight_not_free : forall a, (2 <= length (shp a))%nat -> tight a -> ~ phonon_free a.
Proof.
  intros a Hl Ht Hf. destruct (Ht 0%nat) as [[t [x [_ [_ H]]]] _]; [unfold ndim; lia|].
  rewrite Hf in H. lia.
Qed.

(** C01 *)
Lemma validate_iff : forall a, wf a ->
  (validate_config_is_legal a = Ok tt <-> valid_cloud a).
Proof.
  intros a Hwf. unfold validate_config_is_legal, check_config, valid_cloud, config_shape_legal.
  destruct (Nat.leb_spec 2 (length (shp a))); simpl.
  2:{ split; [easy|]. intros [_ [? _]]; lia. }
  rewrite <- occ_nonneg by lia.
  destruct (config_values_legal a) eqn:V; simpl.
  2:{ split; [easy|]. intros [_ [_ [N _]]]. apply nonneg_values in N; auto. congruence. }
  apply nonneg_values in V; auto.
  rewrite phonon_free_total by (auto; lia).
  destruct (total a =? 0) eqn:E.
  - split; auto. intros. repeat split; auto. left; lia.
  - assert (0 < total a) by (pose proof (total_nonneg a Hwf V); lia).
    destruct (edges_legal_spec a Hwf V H0 H) as [b [Eb Hb]]. rewrite Eb. simpl.
    destruct b; simpl; split; intros; auto; try easy.
    + repeat split; auto. right. tauto.
    + destruct H1 as [_ [_ [_ [?|?]]]]; [lia|]. apply Hb in H1. easy.
Qed.

Lemma validate_err : forall a e, wf a ->
  validate_config_is_legal a = Err e -> e = SystemExit.
Proof.
  intros a e Hwf. unfold validate_config_is_legal, check_config, config_shape_legal.
  destruct (Nat.leb_spec 2 (length (shp a))); simpl; [|congruence].
  destruct (config_values_legal a) eqn:V; simpl; [|congruence].
  apply nonneg_values in V; auto.
  destruct (total a =? 0) eqn:E; [easy|].
  assert (0 < total a) by (pose proof (total_nonneg a Hwf V); lia).
  destruct (edges_legal_spec a Hwf V H0 H) as [b [Eb Hb]]. rewrite Eb. simpl.
  destruct b; simpl; congruence.
Qed.

(* ---------- reduction ---------- *)

Lemma sum0_slice : forall a d lo len, (S d < length (shp a))%nat ->
  (lo + len <= nth (S d) (shp a) 0)%nat ->
  sum0 (slice a (S d) lo len) = slice (sum0 a) d lo len.
Proof.
  intros a d lo len Hd Hlo.
  assert (Hs : shp (sum0 (slice a (S d) lo len)) = shp (slice (sum0 a) d lo len)).
  { rewrite shp_sum0, !shp_slice, shp_sum0. destruct (shp a); auto. }
  apply nd_ext; [apply wf_sum0|apply wf_slice|exact Hs|].
  intros i Hi. rewrite shp_sum0, shp_slice in Hi. rewrite get_sum0 by (rewrite shp_slice; auto).
  assert (Ht : tl (setn (shp a) (S d) len) = setn (tl (shp a)) d len) by (destruct (shp a); auto).
  rewrite Ht in Hi.
  replace (get (slice (sum0 a) d lo len) i) with (get (sum0 a) (setn i d (nth d i 0 + lo)%nat))
    by (unfold slice; rewrite get_tab by (rewrite shp_sum0; exact Hi); auto).
  assert (Hi' : inr (tl (shp a)) (setn i d (nth d i 0 + lo)%nat)).
  { apply inr_nth in Hi. destruct Hi as [L Hi]. rewrite length_setn in L, Hi.
    apply inr_nth. rewrite length_setn. split; [auto|]. intros n Hn.
    specialize (Hi n Hn). destruct (Nat.eq_dec n d).
    - subst. rewrite nth_setn_eq in Hi by auto. rewrite nth_setn_eq by lia.
      rewrite nth_tl_shp. lia.
    - rewrite nth_setn_ne in Hi by auto. rewrite nth_setn_ne by auto. auto. }
  rewrite get_sum0 by exact Hi'.
  assert (Nt : ntypes (slice a (S d) lo len) = ntypes a).
  { unfold ntypes. rewrite shp_slice. destruct (shp a); auto. }
  rewrite Nt. apply sumZ_map_ext. intros t Ht'. apply in_seq in Ht'.
  unfold slice. rewrite get_tab.
  - simpl. auto.
  - destruct (shp a) eqn:E; simpl in *; [lia|]. constructor; auto.
    unfold ntypes in Ht'. rewrite E in Ht'. simpl in Ht'. lia.
Qed.

Lemma setn_addv : forall x d v n, length x = n ->
  setn x d (nth d x 0 + v) = addv x (setn (zerov n) d v).
Proof.
  induction x; intros; subst; simpl.
  - destruct d; auto.
  - destruct d; simpl.
    + f_equal; try lia. fold (zerov (length x)). rewrite addv_zerov; auto.
    + f_equal; [lia|]. apply IHx; auto.
Qed.

Lemma at_slice_shift : forall a d lo len, (S d < length (shp a))%nat ->
  (lo + len <= nth (S d) (shp a) 0)%nat -> nonneg a ->
  (forall p, occupied_slab a d p -> Z.of_nat lo <= p < Z.of_nat (lo + len)) ->
  forall t x, length x = ndim a ->
  occ (slice a (S d) lo len) t x = occ a t (addv x (setn (zerov (ndim a)) d (Z.of_nat lo))).
Proof.
  intros. unfold occ. rewrite at_slice by auto. 
  change (nth (S d) (Z.of_nat t :: x) 0) with (nth d x 0).
  change (setn (Z.of_nat t :: x) (S d) (nth d x 0 + Z.of_nat lo)) with
         (Z.of_nat t :: setn x d (nth d x 0 + Z.of_nat lo)).
  rewrite setn_addv with (n := ndim a) by auto.
  destruct ((0 <=? nth d x 0) && (nth d x 0 <? Z.of_nat len)) eqn:E; auto.
  set (y := addv x (setn (zerov (ndim a)) d (Z.of_nat lo))).
  destruct (Z.eq_dec (at_ a (Z.of_nat t :: y)) 0); auto.
  assert (Ly : length y = ndim a).
  { unfold y. rewrite length_addv; auto. rewrite length_setn, length_zerov; auto. }
  assert (Hny : nth d y 0 = nth d x 0 + Z.of_nat lo).
  { unfold y. rewrite nth_addv by (rewrite length_setn, length_zerov; auto).
    rewrite nth_setn_eq; auto. rewrite length_zerov. unfold ndim. lia. }
  specialize (H2 (nth d y 0)).
  assert (occupied_slab a d (nth d y 0)).
  { exists t, y. split; auto. split; auto. unfold occ. specialize (H1 (Z.of_nat t :: y)). lia. }
  specialize (H2 H4). rewrite Hny in H2. lia.
Qed.

(** Along an axis with one face occupied, cutting to the occupied range. *)
Record reduce_inv (a : nd) (k : nat) (full : nd) (shifts : list Z) : Prop := {
  ri_wf : wf full;
  ri_len : length (shp full) = length (shp a);
  ri_nt : ntypes full = ntypes a;
  ri_nn : nonneg full;
  ri_ls : length shifts = k;
  ri_k : (k <= ndim a)%nat;
  ri_tight : forall d, (d < k)%nat -> tight_on full d;
  ri_same : forall d, (k <= d < ndim a)%nat -> nth (S d) (shp full) 0%nat = nth (S d) (shp a) 0%nat;
  ri_occ : forall t x, length x = ndim a ->
      occ full t x = occ a t (addv x (shifts ++ zerov (ndim a - k)));
  ri_nnsh : Forall (fun z => 0 <= z) shifts
}.

(** At least one face of axis [d] is occupied, or the axis has length one. *)
Definition half_tight (a : nd) (d : nat) : Prop :=
  (exists p, occupied_slab a d p) /\
  (occupied_slab a d 0 \/ occupied_slab a d (Z.of_nat (nth (S d) (shp a) 0%nat) - 1)).

Lemma nth_app_zerov : forall s n d, (length s <= d)%nat -> nth d (s ++ zerov n) 0 = 0.
Proof. intros. rewrite app_nth2 by auto. apply nth_zerov. Qed.

Lemma ri_slab : forall a k full shifts d p, reduce_inv a k full shifts -> (k <= d < ndim a)%nat ->
  (occupied_slab full d p <-> occupied_slab a d p).
Proof.
  intros a k full shifts d p I Hd. destruct I.
  assert (Nd : ndim full = ndim a) by (unfold ndim; lia).
  assert (L : length (shifts ++ zerov (ndim a - k)) = ndim a).
  { rewrite app_length, length_zerov. lia. }
  split; intros [t [x [Hx [Hp Ho]]]].
  - rewrite Nd in Hx. exists t, (addv x (shifts ++ zerov (ndim a - k))).
    rewrite length_addv by lia. split; auto. split.
    + rewrite nth_addv by lia. rewrite nth_app_zerov by lia. lia.
    + rewrite <- ri_occ0; auto.
  - exists t, (subv x (shifts ++ zerov (ndim a - k))).
    rewrite length_subv by lia. split; [lia|]. split.
    + rewrite nth_subv by lia. rewrite nth_app_zerov by lia. lia.
    + rewrite ri_occ0 by (rewrite length_subv; lia). rewrite addv_subv by lia. auto.
Qed.

Lemma snoc_zerov : forall (s : list Z) z n k, length s = k -> (k < n)%nat ->
  (s ++ [z]) ++ zerov (n - S k) = addv (s ++ zerov (n - k)) (setn (zerov n) k z).
Proof.
  intros. apply vec_ext.
  - rewrite length_addv; rewrite ?app_length, ?length_setn, ?length_zerov; simpl; lia.
  - intros m. rewrite nth_addv by (rewrite ?app_length, ?length_setn, ?length_zerov; lia).
    rewrite <- app_assoc.
    destruct (Nat.lt_trichotomy m k) as [?|[?|?]].
    + rewrite !app_nth1 by lia. rewrite nth_setn_ne by lia. rewrite nth_zerov; lia.
    + subst m. rewrite app_nth2 by lia. rewrite (nth_app_zerov s) by lia.
      rewrite nth_setn_eq by (rewrite length_zerov; lia).
      replace (k - length s)%nat with 0%nat by lia. simpl. lia.
    + rewrite app_nth2 by lia. rewrite (nth_app_zerov s) by lia.
      rewrite nth_setn_ne by lia. rewrite nth_zerov.
      destruct (m - length s)%nat eqn:E; [lia|]. simpl. rewrite nth_zerov. lia.
Qed.

(** One cut step keeps the invariant. *)
Lemma cut_step : forall a k full shifts lo len, reduce_inv a k full shifts -> (k < ndim a)%nat ->
  (lo + len <= nth (S k) (shp full) 0)%nat ->
  (forall p, occupied_slab full k p -> Z.of_nat lo <= p < Z.of_nat (lo + len)) ->
  occupied_slab full k (Z.of_nat lo) -> occupied_slab full k (Z.of_nat (lo + len) - 1) ->
  reduce_inv a (S k) (slice full (S k) lo len) (shifts ++ [Z.of_nat lo]).
Proof.
  intros a k full shifts lo len I Hk Hlo Hsupp Hl Hr.
  pose proof (fun d p => ri_slab a k full shifts d p I) as Hslab.
  destruct I.
  assert (Nd : ndim full = ndim a) by (unfold ndim; lia).
  assert (Hlen : (S k < length (shp full))%nat) by (unfold ndim in *; lia).
  assert (Hocc : forall t x, length x = ndim full ->
     occ (slice full (S k) lo len) t x = occ full t (addv x (setn (zerov (ndim full)) k (Z.of_nat lo))))
    by (apply at_slice_shift; auto).
  assert (Nds : ndim (slice full (S k) lo len) = ndim a).
  { unfold ndim. rewrite shp_slice, length_setn. unfold ndim in Nd; lia. }
  assert (Lz : forall v, length (setn (zerov (ndim full)) k v) = ndim full)
    by (intros; rewrite length_setn, length_zerov; auto).
  assert (Hsl : forall d p v, occupied_slab full d p ->
     v = nth d (setn (zerov (ndim full)) k (Z.of_nat lo)) 0 ->
     occupied_slab (slice full (S k) lo len) d (p - v)).
  { intros d p v [t [x [Hx [Hp Ho]]]] ->.
    exists t, (subv x (setn (zerov (ndim full)) k (Z.of_nat lo))).
    rewrite length_subv by (rewrite Lz; auto). split; [lia|]. split.
    - rewrite nth_subv by (rewrite Lz; auto). lia.
    - rewrite Hocc by (rewrite length_subv; rewrite ?Lz; auto).
      rewrite addv_subv by (rewrite Lz; auto). auto. }
  constructor.
  - apply wf_slice.
  - rewrite shp_slice, length_setn; auto.
  - unfold ntypes in *. rewrite shp_slice. destruct (shp full); auto.
  - apply occ_nonneg; [rewrite shp_slice, length_setn; lia|]. intros t x.
    destruct (Nat.eq_dec (length x) (ndim full)).
    + rewrite Hocc; auto. apply ri_nn0.
    + unfold occ. destruct (Z.eq_dec (at_ (slice full (S k) lo len) (Z.of_nat t :: x)) 0); [lia|].
      apply at_length in n0. rewrite shp_slice, length_setn in n0. simpl in n0.
      unfold ndim in *; lia.
  - rewrite app_length; simpl; lia.
  - lia.
  - intros d Hd. unfold tight_on. rewrite shp_slice.
    destruct (Nat.eq_dec d k).
    + subst d. rewrite nth_setn_eq by auto. split.
      * replace 0 with (Z.of_nat lo - Z.of_nat lo) by lia. apply Hsl; auto.
        rewrite nth_setn_eq; auto. rewrite length_zerov; lia.
      * replace (Z.of_nat len - 1) with ((Z.of_nat (lo + len) - 1) - Z.of_nat lo) by lia.
        apply Hsl; auto. rewrite nth_setn_eq; auto. rewrite length_zerov; lia.
    + rewrite nth_setn_ne by lia. destruct (ri_tight0 d ltac:(lia)) as [T1 T2]. split.
      * replace 0 with (0 - 0) by lia. apply Hsl; auto.
        rewrite nth_setn_ne by lia. rewrite nth_zerov; auto.
      * rewrite <- (Z.sub_0_r (_ - 1)). apply Hsl; auto.
        rewrite nth_setn_ne by lia. rewrite nth_zerov; auto.
  - intros d Hd. rewrite shp_slice, nth_setn_ne by lia. apply ri_same0. lia.
  - intros t x Hx. rewrite Hocc by lia.
    rewrite ri_occ0 by (rewrite length_addv; rewrite ?Lz; lia).
    f_equal. rewrite Nd. rewrite addv_assoc.
    + f_equal. rewrite snoc_zerov by auto. apply addv_comm.
      rewrite length_setn, app_length, !length_zerov. lia.
    + rewrite length_setn, length_zerov; auto.
    + rewrite length_setn, app_length, !length_zerov. lia.
  - apply Forall_app. split; auto. constructor; auto. lia.
Qed.

Lemma slice_full : forall a d, wf a -> (d < length (shp a))%nat ->
  slice a d 0 (nth d (shp a) 0%nat) = a.
Proof.
  intros. assert (E : setn (shp a) d (nth d (shp a) 0%nat) = shp a) by apply setn_same.
  apply nd_ext; auto.
  - apply wf_slice.
  - rewrite shp_slice, E. intros i Hi. unfold slice. rewrite get_tab by (rewrite E; auto).
    rewrite Nat.add_0_r, setn_same; auto.
Qed.

Lemma reduce_loop_spec : forall a axs k full shifts,
  reduce_inv a k full shifts -> axs = seq k (ndim a - k) ->
  (forall d, (k <= d < ndim a)%nat -> half_tight a d) ->
  exists full' shifts',
    reduce_loop axs (sum0 full) full shifts = Ok (full', shifts') /\
    reduce_inv a (ndim a) full' shifts'.
Proof.
  induction axs as [|ii r IH]; intros k full shifts I Eseq Hhalf.
  - assert (k = ndim a).
    { destruct (ndim a - k)%nat eqn:E; [|easy]. destruct I. lia. }
    subst. exists full, shifts. simpl. auto.
  - destruct (ndim a - k)%nat as [|m] eqn:Em; [easy|]. simpl in Eseq. injection Eseq as -> ->.
    assert (Hk : (k < ndim a)%nat) by lia.
    assert (Nd : ndim full = ndim a) by (destruct I; unfold ndim; lia).
    assert (Hlen : (S k < length (shp full))%nat) by (unfold ndim in *; lia).
    pose proof (fun p => ri_slab a k full shifts k p I ltac:(lia)) as Hslab.
    assert (Hsame : nth (S k) (shp full) 0%nat = nth (S k) (shp a) 0%nat) by (apply (ri_same _ _ _ _ I); lia).
    assert (Hnn : nonneg full) by apply (ri_nn _ _ _ _ I).
    pose proof (fun p => where_pos_occ full k p Hnn ltac:(lia) ltac:(lia)) as Hw.
    destruct (Hhalf k ltac:(lia)) as [[p0 Hp0] Hface].
    apply Hslab in Hp0. pose proof (occupied_slab_range _ _ _ Hp0 ltac:(lia)) as Rp0.
    assert (Hin0 : In (Z.to_nat p0) (where_pos (sum0 full) k)).
    { apply Hw. replace (Z.of_nat (Z.to_nat p0)) with p0 by lia. auto. }
    cbn [reduce_loop]. destruct (where_pos (sum0 full) k) as [|w0 ws] eqn:Ew; [easy|].
    set (w := w0 :: ws) in *.
    assert (Hne : w <> []) by (unfold w; easy).
    pose proof (lmin_In w Hne) as Hmin. pose proof (lmax_In w Hne) as Hmax.
    apply Hw in Hmin as HminO. apply Hw in Hmax as HmaxO.
    pose proof (occupied_slab_range _ _ _ HmaxO ltac:(lia)) as Rmax.
    pose proof (occupied_slab_range _ _ _ HminO ltac:(lia)) as Rmin.
    assert (Hrange : forall p, occupied_slab full k p -> Z.of_nat (lmin w) <= p <= Z.of_nat (lmax w)).
    { intros p Hp. pose proof (occupied_slab_range _ _ _ Hp ltac:(lia)).
      assert (In (Z.to_nat p) w) by (apply Hw; replace (Z.of_nat (Z.to_nat p)) with p by lia; auto).
      pose proof (lmin_le _ _ H0). pose proof (lmax_ge _ _ H0). lia. }
    rewrite shp_sum0, nth_tl_shp.
    replace (k + 1)%nat with (S k) by lia.
    assert (Hnext : forall lo len, 
      reduce_inv a (S k) (slice full (S k) lo len) (shifts ++ [Z.of_nat lo]) ->
      (lo + len <= nth (S k) (shp full) 0)%nat ->
      exists full' shifts', 
       reduce_loop (seq (S k) m) (slice (sum0 full) k lo len) (slice full (S k) lo len)
        (shifts ++ [Z.of_nat lo]) = Ok (full', shifts') /\ reduce_inv a (ndim a) full' shifts').
    { intros lo len I' Hll. rewrite <- sum0_slice by auto. apply (IH (S k)); auto.
      - f_equal; lia.
      - intros. apply Hhalf; lia. }
    destruct (Nat.ltb_spec (lmax w) (nth (S k) (shp full) 0 - 1)%nat) as [Hlt|Hge].
    + (* right face empty, hence left face occupied *)
      assert (H0o : occupied_slab full k 0).
      { destruct Hface as [F|F]; [apply Hslab; auto|]. apply Hslab in F. apply Hrange in F. lia. }
      pose proof (Hrange _ H0o).
      change [0] with [Z.of_nat 0]. apply Hnext; [|lia].
      apply cut_step; auto; try lia.
      * intros p Hp. apply Hrange in Hp. lia.
      * replace (Z.of_nat (0 + (lmax w + 1)) - 1) with (Z.of_nat (lmax w)) by lia. auto.
    + assert (lmax w = nth (S k) (shp full) 0 - 1)%nat by lia.
      assert (Hsl0 : (0 < lmin w)%nat -> reduce_inv a (S k)
         (slice full (S k) (lmin w) (nth (S k) (shp full) 0%nat - lmin w)%nat) (shifts ++ [Z.of_nat (lmin w)])).
      { intros. apply cut_step; auto; try lia.
        - intros p Hp. apply Hrange in Hp. lia.
        - replace (Z.of_nat (lmin w + (nth (S k) (shp full) 0%nat - lmin w)) - 1) with (Z.of_nat (lmax w)) by lia.
          auto. }
      destruct (Nat.ltb_spec 0 (lmin w)) as [Hl|Hl].
      * apply Hnext; [auto|lia].
      * assert (I' : reduce_inv a (S k) (slice full (S k) 0 (nth (S k) (shp full) 0%nat)) (shifts ++ [Z.of_nat 0])).
        { apply cut_step; auto; try lia.
          - intros p Hp. apply Hrange in Hp. lia.
          - replace 0%nat with (lmin w) by lia. auto.
          - replace (Z.of_nat (0 + nth (S k) (shp full) 0%nat) - 1) with (Z.of_nat (lmax w)) by lia. auto. }
        rewrite slice_full in I'; [|destruct I; auto|auto].
        change [0] with [Z.of_nat 0]. apply (IH (S k)); auto.
        -- f_equal; lia.
        -- intros. apply Hhalf; lia.
Qed.

Lemma reduce_inv_init : forall a, wf a -> nonneg a -> reduce_inv a 0 a [].
Proof.
  intros. constructor; auto; try lia.
  - intros. simpl. rewrite Nat.sub_0_r, addv_zerov; auto.
Qed.

(** Reduction of an array with a half-tight box. *)
Lemma reduction_spec : forall a, wf a -> nonneg a -> (2 <= length (shp a))%nat -> 0 < total a ->
  (forall d, (d < ndim a)%nat -> half_tight a d) ->
  exists b s, reduction_rules a = Ok (b, SVec s) /\
    wf b /\ nonneg b /\ length (shp b) = length (shp a) /\ ntypes b = ntypes a /\ tight b /\
    length s = ndim a /\ Forall (fun z => 0 <= z) s /\
    forall t x, length x = ndim a -> occ b t x = occ a t (addv x s).
Proof.
  intros a Hwf Hnn Hl Ht Hh. unfold reduction_rules.
  destruct (Z.eqb_spec (total a) 0); [lia|].
  rewrite shp_sum0, length_tl_shp.
  destruct (reduce_loop_spec a (seq 0 (ndim a)) 0 a [] (reduce_inv_init a Hwf Hnn)) as [b [s [E I]]].
  - f_equal; lia.
  - intros; apply Hh; lia.
  - rewrite E. simpl. destruct I. exists b, s. rewrite Nat.sub_diag in ri_occ0. simpl in ri_occ0.
    rewrite app_nil_r in ri_occ0.
    refine (conj eq_refl (conj ri_wf0 (conj ri_nn0 (conj ri_len0 (conj ri_nt0
             (conj _ (conj ri_ls0 (conj ri_nnsh0 ri_occ0)))))))).
    intros d Hd. apply ri_tight0. unfold ndim in *; lia.
Qed.
