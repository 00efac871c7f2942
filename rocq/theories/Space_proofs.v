(** Lemmas about the generation of the variational space. *)
From Coq Require Import ZArith List Bool Lia Permutation.
From Verif Require Import Base NdArray NdArray_proofs Config Spec Spec_ops Config_proofs
  Modify_proofs Legal_proofs Model Space Spec_space.
Import ListNotations.
Open Scope Z_scope.

Lemma In_range : forall lo hi x, In x (range lo hi) <-> lo <= x < hi.
Proof.
  intros. unfold range. rewrite in_map_iff. split.
  - intros [i [<- Hi]]. apply in_seq in Hi. lia.
  - intros H. exists (Z.to_nat (x - lo)). split; [lia|]. apply in_seq. lia.
Qed.

Lemma NoDup_range : forall lo hi, NoDup (range lo hi).
Proof.
  intros. unfold range. apply NoDup_map_inj; [intros; lia|apply seq_NoDup].
Qed.

Lemma length_range : forall lo hi, length (range lo hi) = Z.to_nat (hi - lo).
Proof. intros. unfold range. rewrite map_length, seq_length. auto. Qed.

Lemma In_csg : forall l s x, 0 <= s ->
  (In x (csg l s) <-> length x = S l /\ Forall (fun v => 0 <= v) x /\ sumZ x = s).
Proof.
  induction l; intros s x Hs; cbn [csg].
  - split.
    + intros [<-|[]]. split; auto. split; [constructor; auto|]. simpl. lia.
    + intros [L [F S]]. destruct x as [|v [|]]; try (simpl in L; lia). simpl in S. left. f_equal. lia.
  - rewrite in_flat_map. split.
    + intros [v [Hv Hx]]. apply In_range in Hv. apply in_map_iff in Hx.
      destruct Hx as [y [<- Hy]]. apply IHl in Hy; [|lia]. destruct Hy as [L [F S]].
      split; [simpl; lia|]. split; [constructor; auto; lia|]. simpl. lia.
    + intros [L [F S]]. destruct x as [|v x]; [simpl in L; lia|]. inversion F; subst.
      exists v. pose proof (sumZ_nonneg _ H2). simpl in L. cbn [sumZ fold_right].
      change (fold_right Z.add 0 x) with (sumZ x).
      split; [apply In_range; lia|]. apply in_map. apply IHl; [lia|].
      split; [lia|]. split; auto. lia.
Qed.

Lemma NoDup_csg : forall l s, NoDup (csg l s).
Proof.
  induction l; intros; cbn [csg]; [constructor; [auto|constructor]|].
  apply NoDup_flat_map; [apply NoDup_range| |].
  - intros v _. apply NoDup_map_inj; auto. intros. congruence.
  - intros v w y _ _ Hv Hw. apply in_map_iff in Hv. apply in_map_iff in Hw.
    destruct Hv as [? [<- _]]. destruct Hw as [? [E _]]. congruence.
Qed.

Lemma config_space_gen_spec : forall len s, (1 <= len)%nat -> 0 <= s ->
  exists l, config_space_gen len s = Ok l /\ NoDup l /\
    forall x, In x l <-> length x = len /\ Forall (fun v => 0 <= v) x /\ sumZ x = s.
Proof.
  intros [|len] s H Hs; [lia|]. exists (csg len s). split; auto. split; [apply NoDup_csg|].
  intros. apply In_csg; auto.
Qed.

Lemma filterM_spec : forall {A} (f : A -> result bool) l,
  (forall x, In x l -> exists b, f x = Ok b) ->
  exists g, filterM f l = Ok (filter g l) /\ forall x, In x l -> f x = Ok (g x).
Proof.
  intros A f l H. exists (fun x => match f x with Ok b => b | Err _ => false end). split.
  - induction l; simpl; auto. destruct (H a) as [b Hb]; [left; auto|]. rewrite Hb. simpl.
    rewrite IHl by (intros; apply H; right; auto). simpl. destruct b; auto.
  - intros x Hx. destruct (H x Hx) as [b ->]. auto.
Qed.

Lemma fold_left_max_ge : forall r x y, x <= y -> x <= fold_left Z.max r y.
Proof. induction r; simpl; intros; auto. apply IHr. lia. Qed.

Lemma legal_valid : forall a mps pe pn, wf a -> legal_spec a mps pe pn false -> valid_cloud a.
Proof. intros a mps pe pn W [[? _]|H]; [easy|]. split; auto. tauto. Qed.

Lemma legal_block_spec : forall {T} (m : model T) nb z, wf_model m -> 1 <= nb -> 1 <= z ->
  exists l, legal_block m nb z = Ok (map (fun a => mkConfig a 1 0) l) /\ NoDup l /\
    forall a, In a l <-> wf a /\ shp a = [m_ntypes m; Z.to_nat z] /\ total a = nb /\
       legal_spec a (m_mps m) (Some (m_pe m)) (Some (m_pn m)) false.
Proof.
  intros T m nb z [_ [Lpe [Lpn Nt]]] Hnb Hz. unfold legal_block.
  destruct (config_space_gen_spec (Z.to_nat z * m_ntypes m) nb) as [cs [E [ND Hcs]]]; [nia|lia|].
  rewrite E. cbn [bind].
  set (arrs := map (mkNd [m_ntypes m; Z.to_nat z]) cs).
  assert (Wf : forall a, In a arrs -> wf a /\ shp a = [m_ntypes m; Z.to_nat z]).
  { intros a Ha. apply in_map_iff in Ha. destruct Ha as [c [<- Hc]]. apply Hcs in Hc.
    split; auto. unfold wf. simpl. lia. }
  assert (Leg : forall a, wf a -> shp a = [m_ntypes m; Z.to_nat z] ->
     exists b, config_legal a (m_mps m) (Some (m_pe m)) (Some (m_pn m)) false = Ok b /\
      (b = true <-> legal_spec a (m_mps m) (Some (m_pe m)) (Some (m_pn m)) false)).
  { intros a W S. apply config_legal_spec; auto; try easy.
    - rewrite S. simpl. constructor; auto. lia.
    - intros e [= <-]. unfold ntypes. rewrite S. simpl. lia.
    - intros e [= <-]. unfold ntypes. rewrite S. simpl. lia. }
  destruct (filterM_spec (fun a => config_legal a (m_mps m) (Some (m_pe m)) (Some (m_pn m)) false) arrs)
    as [g [Eg Hg]].
  { intros a Ha. destruct (Wf a Ha) as [W S]. destruct (Leg a W S) as [b [? _]]. eauto. }
  rewrite Eg. cbn [bind].
  assert (Hl : forall a, In a (filter g arrs) <-> wf a /\ shp a = [m_ntypes m; Z.to_nat z] /\ total a = nb /\
       legal_spec a (m_mps m) (Some (m_pe m)) (Some (m_pn m)) false).
  { intros a. rewrite filter_In. split.
    - intros [Ha Hga]. destruct (Wf a Ha) as [W S]. split; auto. split; auto.
      specialize (Hg a Ha). destruct (Leg a W S) as [b [E1 E2]]. rewrite Hg in E1.
      injection E1 as <-. split; [|tauto].
      apply in_map_iff in Ha. destruct Ha as [c [<- Hc]]. apply Hcs in Hc. unfold total. simpl. tauto.
    - intros [W [S [Tt Lg]]].
      assert (Ha : In a arrs).
      { apply in_map_iff. exists (dat a). split; [destruct a; simpl in *; congruence|].
        apply Hcs. split; [|split; auto].
        - unfold wf in W. rewrite S in W. simpl in W. lia.
        - apply nonneg_Forall; auto. apply valid_nonneg. eapply legal_valid; eauto. }
      split; auto. specialize (Hg a Ha). destruct (Leg a W S) as [b [E1 E2]]. rewrite Hg in E1.
      injection E1 as <-. tauto. }
  exists (filter g arrs). split; [|split; auto].
  - apply mapM_ok. intros a Ha. apply Hl in Ha. destruct Ha as [W [S [_ Lg]]].
    apply config_init_spec; auto. eapply legal_valid; eauto.
  - apply NoDup_filter. unfold arrs. apply NoDup_map_inj; auto. intros. congruence.
Qed.

Lemma mapM_concat_spec : forall {A B C} (f : A -> result (list C)) (h : B -> C) (P : A -> B -> Prop) l,
  (forall x, In x l -> exists r, f x = Ok (map h r) /\ NoDup r /\ forall b, In b r <-> P x b) ->
  NoDup l -> (forall x y b, P x b -> P y b -> x = y) ->
  exists bs r, mapM f l = Ok bs /\ concat bs = map h r /\ NoDup r /\
    forall b, In b r <-> exists x, In x l /\ P x b.
Proof.
  induction l as [|x l IH]; intros Hf ND Hinj.
  - exists [], []. simpl. split; auto. split; auto. split; [constructor|].
    intros. split; [easy|]. intros [? [[] _]].
  - destruct (Hf x) as [r [E [NDr Hr]]]; [left; auto|].
    inversion ND; subst. destruct IH as [bs [rs [E2 [Ec [NDs Hrs]]]]]; auto.
    { intros; apply Hf; right; auto. }
    exists (map h r :: bs), (r ++ rs). cbn [mapM]. rewrite E, E2. cbn [bind].
    split; auto. split; [cbn [concat]; rewrite map_app, Ec; auto|]. split.
    + apply NoDup_app; auto. intros b Hb Hb2. apply Hr in Hb. apply Hrs in Hb2.
      destruct Hb2 as [y [Hy Pb]]. rewrite (Hinj x y b) in H1 by auto. auto.
    + intros b. rewrite in_app_iff, Hr, Hrs. split.
      * intros [?|[y [? ?]]]; [exists x; simpl; auto|exists y; simpl; auto].
      * intros [y [[<-|Hy] Pb]]; eauto.
Qed.

Lemma assocZ_map : forall {A} (f : Z -> A) l k,
  assocZ k (map (fun n => (n, f n)) l) = if existsb (Z.eqb k) l then Some (f k) else None.
Proof.
  induction l; simpl; intros; auto. rewrite IHl. destruct (Z.eqb_spec a k).
  - subst. rewrite Z.eqb_refl. auto.
  - destruct (Z.eqb_spec k a); [lia|]. auto.
Qed.

Lemma mapM_assoc : forall {A} (f : Z -> result (Z * A)) l,
  NoDup l -> (forall n, In n l -> exists v, f n = Ok (n, v)) ->
  exists d, mapM f l = Ok d /\ map fst d = l /\
    forall n, In n l -> exists v, f n = Ok (n, v) /\ assocZ n d = Some v.
Proof.
  induction l as [|x l IH]; intros ND H.
  - exists []. simpl. split; auto. split; auto. intros ? [].
  - inversion ND; subst. destruct IH as [d [E [K Hd]]]; auto.
    { intros; apply H; right; auto. }
    destruct (H x) as [v Ev]; [left; auto|].
    exists ((x, v) :: d). cbn [mapM]. rewrite Ev, E. cbn [bind]. split; auto.
    split; [simpl; congruence|]. intros n [<-|Hn].
    + exists v. split; auto. cbn [assocZ]. rewrite Z.eqb_refl. auto.
    + destruct (Hd n Hn) as [w [E1 E2]]. exists w. split; auto. cbn [assocZ].
      destruct (Z.eqb_spec x n); [subst; easy|auto].
Qed.

(** The total of an array is the sum of its per-type totals. *)
Lemma total_types : forall a, wf a -> (1 <= length (shp a))%nat ->
  total a = sumZ (map (total_type a) (seq 0 (ntypes a))).
Proof.
  intros a W L. rewrite total_all_idx by auto. unfold total_type, ntypes.
  destruct (shp a) as [|d s] eqn:E; [simpl in L; lia|]. cbn [hd tl all_idx].
  rewrite sumZ_flat_map. f_equal. apply map_ext. intros t. rewrite map_map. auto.
Qed.

Lemma sumZ_le : forall l l', Forall2 Z.le l l' -> sumZ l <= sumZ l'.
Proof. induction 1; simpl; lia. Qed.

Lemma sum_seq_nth : forall (l : list Z), sumZ (map (fun t => nth t l 0) (seq 0 (length l))) = sumZ l.
Proof.
  induction l; auto. cbn [length seq map]. rewrite <- seq_shift, map_map.
  cbn [nth sumZ fold_right]. unfold sumZ in *. simpl. rewrite IHl. auto.
Qed.

Lemma sumZ_map_le : forall {A} (f g : A -> Z) l, (forall x, In x l -> f x <= g x) ->
  sumZ (map f l) <= sumZ (map g l).
Proof.
  induction l; intros H; [simpl; lia|]. pose proof (H a (or_introl eq_refl)).
  change (f a + sumZ (map f l) <= g a + sumZ (map g l)).
  assert (sumZ (map f l) <= sumZ (map g l)) by (apply IHl; intros; apply H; right; auto). lia.
Qed.

Lemma space_bounds : forall {T} (m : model T) ae n a, wf_model m -> model_space m ae n a ->
  1 <= n <= sumZ (m_pn m).
Proof.
  intros T m ae n a [_ [Lpe [Lpn Nt]]] [W [[z [S Hz]] [Tt Lg]]].
  assert (V : valid_cloud a) by (eapply legal_valid; eauto).
  assert (R : (2 <= length (shp a))%nat) by (apply valid_rank; auto).
  destruct Lg as [[? _]|[_ [_ [Ti [_ [_ Hn]]]]]]; [easy|].
  assert (0 < total a).
  { pose proof (total_nonneg _ W (valid_nonneg _ V)). destruct (Z.eq_dec (total a) 0); [|lia].
    exfalso. apply (tight_not_free a R Ti). apply phonon_free_total; auto; try lia. apply valid_nonneg; auto. }
  split; [lia|]. rewrite <- Tt, total_types by (auto; lia).
  rewrite <- (sum_seq_nth (m_pn m)). unfold ntypes. rewrite S. cbn [hd]. rewrite Lpn.
  apply sumZ_map_le. intros t Ht. apply in_seq in Ht. apply (Hn (m_pn m)); auto.
  unfold ntypes. rewrite S. simpl. lia.
Qed.

Lemma generate_space_spec : forall {T} (m : model T) ae, wf_model m -> absolute_extent m = Some ae ->
  exists d, generate_space m = Ok d /\
    map fst d = range 1 (sumZ (m_pn m) + 1) /\
    (forall n, 1 <= n <= sumZ (m_pn m) ->
       exists l, assocZ n d = Some (map (fun a => mkConfig a 1 0) l) /\ NoDup l /\
         forall a, In a l <-> model_space m ae n a).
Proof.
  intros T m ae W Eae. unfold generate_space. rewrite Eae.
  assert (Hd : (h_dim (m_ham m) = 1)%nat) by apply W. rewrite Hd. cbn [Nat.leb guard bind].
  assert (B : forall n, 1 <= n -> exists bs r,
     mapM (legal_block m n) (range 1 (ae + 1)) = Ok bs /\
     concat bs = map (fun a => mkConfig a 1 0) r /\ NoDup r /\ forall a, In a r <-> model_space m ae n a).
  { intros n Hn.
    destruct (mapM_concat_spec (legal_block m n) (fun a => mkConfig a 1 0)
      (fun z a => wf a /\ (shp a = [m_ntypes m; Z.to_nat z] /\ 1 <= z) /\ total a = n /\
       legal_spec a (m_mps m) (Some (m_pe m)) (Some (m_pn m)) false) (range 1 (ae + 1)))
      as [bs [r [E [Ec [ND Hr]]]]].
    - intros z Hz. apply In_range in Hz.
      destruct (legal_block_spec m n z W Hn ltac:(lia)) as [l [E [ND Hl]]].
      exists l. split; auto. split; auto. intros a. rewrite Hl. intuition.
    - apply NoDup_range.
    - intros z z' a [_ [[Q ?] _]] [_ [[Q' ?] _]]. rewrite Q in Q'. injection Q' as Q'. lia.
    - exists bs, r. split; auto. split; auto. split; auto. intros a. rewrite Hr. unfold model_space, in_space.
      split.
      + intros [z [Hz [? [[Q ?] [? ?]]]]]. apply In_range in Hz. split; auto. split; auto.
        exists (Z.to_nat z). split; auto. lia.
      + intros [? [[z [Q ?]] [? ?]]]. exists (Z.of_nat z). rewrite In_range, Nat2Z.id. split; [lia|].
        repeat split; auto. lia. }
  destruct (mapM_assoc (fun nb => bs <- mapM (legal_block m nb) (range 1 (ae + 1)) ;; Ok (nb, concat bs))
     (range 1 (sumZ (m_pn m) + 1))) as [d [E [K Hd']]].
  - apply NoDup_range.
  - intros n Hn. apply In_range in Hn. destruct (B n) as [bs [r [E _]]]; [lia|]. rewrite E. cbn [bind]. eauto.
  - exists d. split; auto. split; auto. intros n Hn. destruct (Hd' n) as [v [Ev Ea]]; [apply In_range; lia|].
    destruct (B n) as [bs [r [E1 [Ec [ND Hr]]]]]; [lia|]. rewrite E1 in Ev. cbn [bind] in Ev.
    injection Ev as <-. rewrite Ec in Ea. eauto.
Qed.

Lemma space_monotone : forall {T} (m m' : model T) ae ae' n a,
  length (m_pe m) = m_ntypes m -> length (m_pn m) = m_ntypes m ->
  limits_le m m' ae ae' -> model_space m ae n a -> model_space m' ae' n a.
Proof.
  intros T m m' ae ae' n a Lpe Lpn [Hn [Hae [He [Hp Hs]]]] [W [[z [S Hz]] [Tt Lg]]].
  unfold model_space, in_space. rewrite <- Hn. split; auto. split; [exists z; split; auto; lia|]. split; auto.
  destruct Lg as [[? _]|[R [N [Ti [Hm [Hpe Hpn]]]]]]; [easy|]. right. split; auto. split; auto. split; auto.
  assert (Q : forall l l', Forall2 Z.le l l' -> forall t, nth t l 0 <= nth t l' 0).
  { induction 1; destruct t; simpl; auto; lia. }
  split; [|split].
  - intros x Ex t y. rewrite Ex in Hs. destruct (m_mps m) as [u|] eqn:Eu; [|easy].
    specialize (Hm u eq_refl t y). lia.
  - intros e [= <-] t Ht. specialize (Hpe _ eq_refl t Ht). destruct Hpe as [P1 P2].
    specialize (Q _ _ He t). split; [lia|]. intros x y Hx Hy. specialize (P2 x y Hx Hy). lia.
  - intros e [= <-] t Ht. specialize (Hpn _ eq_refl t Ht). specialize (Q _ _ Hp t). lia.
Qed.

Lemma map_cfg_mk : forall l, map cfg (map (fun a => mkConfig a 1 0) l) = l.
Proof. intros. rewrite map_map. apply map_id. Qed.

Lemma assocZ_none : forall {A} (d : list (Z * A)) k, ~ In k (map fst d) -> assocZ k d = None.
Proof.
  induction d as [|[k' v'] d IH]; simpl; intros k H; auto.
  destruct (Z.eqb_spec k' k); [subst; tauto|]. apply IH. tauto.
Qed.

Lemma space_complete : forall {T} (m : model T) ae, wf_model m -> absolute_extent m = Some ae ->
  exists d, generate_space m = Ok d /\ map fst d = range 1 (sumZ (m_pn m) + 1) /\
    forall n, NoDup (clouds_of d n) /\ forall a, In a (clouds_of d n) <-> model_space m ae n a.
Proof.
  intros T m ae W E. destruct (generate_space_spec m ae W E) as [d [Ed [K Hd]]].
  exists d. split; auto. split; auto. intros n. unfold clouds_of.
  destruct (Z_lt_ge_dec n 1) as [H1|H1]; [|destruct (Z_lt_ge_dec (sumZ (m_pn m)) n) as [H2|H2]].
  - rewrite assocZ_none by (rewrite K, In_range; lia). split; [constructor|]. split; [easy|].
    intros H. apply space_bounds in H; auto. lia.
  - rewrite assocZ_none by (rewrite K, In_range; lia). split; [constructor|]. split; [easy|].
    intros H. apply space_bounds in H; auto. lia.
  - destruct (Hd n ltac:(lia)) as [l [-> [ND Hl]]]. rewrite map_cfg_mk. auto.
Qed.

Lemma space_grows : forall {T} (m m' : model T) ae ae', wf_model m -> wf_model m' ->
  absolute_extent m = Some ae -> absolute_extent m' = Some ae' -> limits_le m m' ae ae' ->
  exists d d', generate_space m = Ok d /\ generate_space m' = Ok d' /\
    forall n a, In a (clouds_of d n) -> In a (clouds_of d' n).
Proof.
  intros T m m' ae ae' W W' E E' L.
  destruct (space_complete m ae W E) as [d [Ed [_ Hd]]].
  destruct (space_complete m' ae' W' E') as [d' [Ed' [_ Hd']]].
  exists d, d'. split; auto. split; auto. intros n a Ha. apply Hd'. apply Hd in Ha.
  eapply space_monotone; eauto; apply W.
Qed.

Lemma higher_dim_exits : forall {T} (m : model T),
  (1 < h_dim (m_ham m))%nat -> generate_space m = Err SystemExit.
Proof. intros. unfold generate_space. rewrite (proj2 (Nat.leb_gt _ _) H). auto. Qed.
