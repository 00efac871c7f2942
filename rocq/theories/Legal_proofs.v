(** Lemmas: abort behaviour, operation sequences, [config_legal]. *)
From Coq Require Import ZArith List Bool Lia Permutation.
From Verif Require Import Base NdArray NdArray_proofs Config Spec Spec_ops Config_proofs Modify_proofs.
Import ListNotations.
Open Scope Z_scope.

(* ---------- C05 ---------- *)

Lemma norm_indexes_inr : forall s x i, norm_indexes s x = Some i ->
  inr s i /\ length x = length s /\
  forall k, (k < length s)%nat ->
    - Z.of_nat (nth k s 0%nat) <= nth k x 0 < Z.of_nat (nth k s 0%nat) /\
    Z.of_nat (nth k i 0%nat) = nth k x 0 mod Z.of_nat (nth k s 0%nat).
Proof.
  induction s; destruct x; simpl; intros; try easy.
  - injection H as <-. split; [constructor|split; auto; lia].
  - destruct (norm_index a z) eqn:E; [|easy].
    destruct (norm_indexes s x) eqn:E2; [|easy]. injection H as <-.
    destruct (IHs _ _ E2) as [I1 [I2 I3]].
    assert (Q : (n < a)%nat /\ - Z.of_nat a <= z < Z.of_nat a /\ Z.of_nat n = z mod Z.of_nat a).
    { unfold norm_index in E.
      destruct ((0 <=? z) && (z <? Z.of_nat a)) eqn:E3.
      - injection E as <-. rewrite Z.mod_small by lia. lia.
      - destruct ((- Z.of_nat a <=? z) && (z <? 0)) eqn:E4; [|easy]. injection E as <-.
        replace (z mod Z.of_nat a) with ((z + 1 * Z.of_nat a) mod Z.of_nat a)
          by (apply Z.mod_add; lia).
        rewrite Z.mod_small by lia. lia. }
    split; [constructor; tauto|]. split; [lia|].
    intros [|k] Hk; simpl; [tauto|]. apply I3; lia.
Qed.

Lemma norm_indexes_some : forall s x, length x = length s ->
  (forall k, (k < length s)%nat ->
    - Z.of_nat (nth k s 0%nat) <= nth k x 0 < Z.of_nat (nth k s 0%nat)) ->
  exists i, norm_indexes s x = Some i.
Proof.
  induction s; destruct x; simpl; intros; try easy; [eauto|].
  destruct (IHs x) as [i E]; [lia|intros k Hk; apply (H0 (S k)); lia|]. rewrite E.
  specialize (H0 0%nat ltac:(lia)). simpl in H0. unfold norm_index.
  destruct ((0 <=? z) && (z <? Z.of_nat a)) eqn:E3; [eauto|].
  destruct ((- Z.of_nat a <=? z) && (z <? 0)) eqn:E4; [eauto|lia].
Qed.

Lemma inr_map_of_norm : forall s i, inr s i -> norm_indexes s (map Z.of_nat i) = Some i.
Proof.
  intros. rewrite norm_indexes_inb; [rewrite map_to_of; auto|]. apply inb_of; auto.
Qed.

(** Removal with any accepted index is removal at the wrapped position. *)
Lemma remove_wrap : forall c x i, norm_indexes (shp (cfg c)) x = Some i ->
  remove_phonon c x = remove_phonon c (map Z.of_nat i).
Proof.
  intros. unfold remove_phonon. destruct (norm_indexes_inr _ _ _ H) as [I1 [I2 I3]].
  rewrite H, (inr_map_of_norm _ _ I1). rewrite I2, map_length, (inr_length _ _ I1). auto.
Qed.

Lemma remove_ok_inv : forall a mm m x b s, valid_cloud a ->
  remove_phonon (mkConfig a mm m) x = Ok (b, s) ->
  m < mm /\ exists t loc, norm_indexes (shp a) x = Some (t :: loc) /\
    0 < occ a t (map Z.of_nat loc) /\
    remove_phonon (mkConfig a mm m) (Z.of_nat t :: map Z.of_nat loc) = Ok (b, s).
Proof.
  intros a mm m x b s V H. pose proof (valid_rank _ V) as R.
  pose proof H as H0. unfold remove_phonon in H. cbn [cfg max_mods mods] in H.
  destruct (m <? mm) eqn:E1; [|easy]. cbn [guard bind] in H. split; [lia|].
  destruct (Nat.eqb (length x) (length (shp a))) eqn:E2; [|easy]. cbn [guard bind] in H.
  destruct (norm_indexes (shp a) x) as [i|] eqn:E3; [|easy].
  destruct (norm_indexes_inr _ _ _ E3) as [I1 [I2 I3]].
  destruct i as [|t loc]; [apply inr_length in I1; simpl in I1; lia|].
  exists t, loc. split; auto.
  destruct (0 <=? get (upd a (t :: loc) (-1)) (t :: loc)) eqn:E4; [|easy].
  rewrite get_upd in E4 by auto. rewrite (proj2 (eqln_eq (t :: loc) (t :: loc)) eq_refl) in E4.
  split.
  - unfold occ. change (Z.of_nat t :: map Z.of_nat loc) with (map Z.of_nat (t :: loc)).
    rewrite at_of; auto. lia.
  - rewrite (remove_wrap (mkConfig a mm m) x (t :: loc) E3) in H0. auto.
Qed.

(** Every outcome of [remove_phonon_] on a valid cloud. *)
Lemma remove_total : forall a mm m x, valid_cloud a ->
  (exists r, remove_phonon (mkConfig a mm m) x = Ok r) \/
  remove_phonon (mkConfig a mm m) x = Err SystemExit.
Proof.
  intros a mm m x V. pose proof (valid_rank _ V).
  unfold remove_phonon. cbn [cfg max_mods mods].
  destruct (m <? mm) eqn:E1; [|right; auto]. cbn [guard bind].
  destruct (Nat.eqb (length x) (length (shp a))) eqn:E2; [|right; auto]. cbn [guard bind].
  destruct (norm_indexes (shp a) x) as [i|] eqn:E3; [|right; auto].
  destruct (norm_indexes_inr _ _ _ E3) as [I1 [I2 I3]].
  destruct i as [|t loc]; [apply inr_length in I1; simpl in I1; lia|].
  destruct (0 <=? get (upd a (t :: loc) (-1)) (t :: loc)) eqn:E4; [|right; auto].
  left. cbn [guard bind].
  rewrite get_upd in E4 by auto. rewrite (proj2 (eqln_eq (t :: loc) (t :: loc)) eq_refl) in E4.
  destruct (remove_spec a mm m t (map Z.of_nat loc)) as [b [s [E _]]]; auto; try lia.
  { unfold occ. change (Z.of_nat t :: map Z.of_nat loc) with (map Z.of_nat (t :: loc)).
    rewrite at_of; auto. lia. }
  change (Z.of_nat t :: map Z.of_nat loc) with (map Z.of_nat (t :: loc)) in E.
  unfold remove_phonon in E. cbn [cfg max_mods mods] in E. rewrite E1 in E. cbn [guard bind] in E.
  rewrite (inr_map_of_norm _ _ I1) in E.
  destruct (Nat.eqb (length (map Z.of_nat (t :: loc))) (length (shp a))); [|easy]. cbn [guard bind] in E.
  destruct (0 <=? get (upd a (t :: loc) (-1)) (t :: loc)); [|easy]. cbn [guard bind] in E.
  rewrite E. eauto.
Qed.

Lemma remove_abort : forall a mm m x, valid_cloud a ->
  (mm <= m \/ length x <> length (shp a) \/
   (exists k, (k < length (shp a))%nat /\
      ~ (- Z.of_nat (nth k (shp a) 0%nat) <= nth k x 0 < Z.of_nat (nth k (shp a) 0%nat))) \/
   (exists t y, x = Z.of_nat t :: y /\ Forall (fun z => 0 <= z) y /\ occ a t y = 0)) ->
  remove_phonon (mkConfig a mm m) x = Err SystemExit.
Proof.
  intros a mm m x V H. destruct (remove_total a mm m x V) as [[[b s] E]|]; auto. exfalso.
  destruct (remove_ok_inv _ _ _ _ _ _ V E) as [Hm [t [loc [En [Ho _]]]]].
  destruct (norm_indexes_inr _ _ _ En) as [I1 [I2 I3]].
  destruct H as [H|[H|[[k [Hk H]]|[t' [y [-> [Hy H]]]]]]]; [lia|auto| |].
  - apply H. apply I3; auto.
  - assert (inb (shp a) (Z.of_nat t' :: y) = true).
    { apply inb_nth. split; [auto|]. intros n Hn. destruct (I3 n Hn). split; [|lia].
      destruct n; simpl; [lia|]. simpl in Hn. 
      destruct (Nat.lt_ge_cases n (length y)).
      - rewrite Forall_forall in Hy. apply Hy. apply nth_In; auto.
      - simpl in I2. lia. }
    rewrite (norm_indexes_inb _ _ H0) in En. injection En as <- <-.
    rewrite Nat2Z.id in *. rewrite map_of_to in Ho by auto. lia.
Qed.

Lemma add_outcome : forall a mm m x, wf a -> (0 < length (shp a))%nat ->
  (m < mm /\ length x = length (shp a) /\ 0 <= hd (-1) x < Z.of_nat (ntypes a) /\
   exists r, add_phonon (mkConfig a mm m) x = Ok r) \/
  (~ (m < mm /\ length x = length (shp a) /\ 0 <= hd (-1) x < Z.of_nat (ntypes a)) /\
   add_phonon (mkConfig a mm m) x = Err SystemExit).
Proof.
  intros a mm m x W L.
  destruct (Z_lt_ge_dec m mm) as [E1|E1].
  2:{ right. split; [lia|]. unfold add_phonon. cbn [cfg max_mods mods].
      replace (m <? mm) with false by lia. auto. }
  destruct (Nat.eq_dec (length x) (length (shp a))) as [E2|E2].
  2:{ right. split; [tauto|]. unfold add_phonon. cbn [cfg max_mods mods].
      replace (m <? mm) with true by lia. cbn [guard bind].
      replace (Nat.eqb (length x) (length (shp a))) with false; auto.
      symmetry. apply Nat.eqb_neq; auto. }
  destruct x as [|t0 loc]; [simpl in E2; lia|]. cbn [hd].
  destruct (Z_lt_ge_dec t0 0) as [E3|E3].
  { right. split; [lia|]. unfold add_phonon. cbn [cfg max_mods mods].
    replace (m <? mm) with true by lia. rewrite E2, Nat.eqb_refl. cbn [guard bind].
    destruct (shp a); [simpl in L; lia|].
    replace ((0 <=? t0) && (t0 <=? Z.of_nat n - 1)) with false by lia. auto. }
  destruct (Z_lt_ge_dec t0 (Z.of_nat (ntypes a))) as [E4|E4].
  - left. split; auto. split; auto. split; [lia|].
    destruct (add_raw a mm m (Z.to_nat t0) loc) as [b [E _]]; auto; try lia.
    { simpl in E2. unfold ndim. lia. }
    replace (Z.of_nat (Z.to_nat t0)) with t0 in E by lia. eauto.
  - right. split; [lia|]. unfold add_phonon. cbn [cfg max_mods mods].
    replace (m <? mm) with true by lia. rewrite E2, Nat.eqb_refl. cbn [guard bind].
    unfold ntypes in E4. destruct (shp a); [simpl in L; lia|]. simpl in E4.
    replace ((0 <=? t0) && (t0 <=? Z.of_nat n - 1)) with false by lia. auto.
Qed.

(* ---------- C08 ---------- *)

Lemma history_invariant : forall c l c', history c l c' -> valid_cloud (cfg c) ->
  valid_cloud (cfg c') /\ length (shp (cfg c')) = length (shp (cfg c)) /\
  ntypes (cfg c') = ntypes (cfg c) /\ total (cfg c') = total (cfg c) + balance l /\
  max_mods c' = max_mods c /\ mods c' = mods c + Z.of_nat (length l) /\
  (l <> [] -> mods c' <= max_mods c).
Proof.
  induction 1; intros V.
  - split; auto. repeat (split; auto); try easy; unfold balance; simpl; lia.
  - destruct c as [a mm m]. cbn [cfg max_mods mods] in *.
    pose proof (valid_rank _ V). unfold run_op in H0.
    destruct (add_outcome a mm m x (valid_wf _ V) ltac:(lia)) as [[Hm [Hl [Ht [r' E]]]]|[_ E]];
      rewrite E in H0; [|easy]. cbn [bind] in H0. injection H0 as <-.
    destruct x as [|t0 loc]; [simpl in Hl; lia|]. cbn [hd] in Ht.
    destruct (add_spec a mm m (Z.to_nat t0) loc) as [b [s [E' [Vb [[Mb1 [Mb2 _]] [Tb _]]]]]]; auto; try lia.
    { simpl in Hl. unfold ndim; lia. }
    replace (Z.of_nat (Z.to_nat t0)) with t0 in E' by lia. rewrite E in E'. injection E' as ->.
    cbn [fst cfg mods max_mods] in *. specialize (IHhistory Vb).
    cbn [length]. change (balance (OpAdd (t0 :: loc) :: r)) with (1 + balance r).
    split; [tauto|]. do 5 (split; [lia|]).
    intros _. destruct r; [|apply IHhistory; easy]. inversion H1; subst. simpl in *. lia.
  - destruct c as [a mm m]. cbn [cfg max_mods mods] in *.
    unfold run_op in H. destruct (remove_phonon {| cfg := a; max_mods := mm; mods := m |} x) as [[b s]|] eqn:E; [|easy].
    cbn [bind fst] in H. injection H as <-.
    destruct (remove_ok_inv _ _ _ _ _ _ V E) as [Hm [t [loc [En [Ho E2]]]]].
    destruct (remove_spec a mm m t (map Z.of_nat loc)) as [b' [s' [E' [Vb [[Mb1 [Mb2 _]] [Tb _]]]]]]; auto.
    rewrite E2 in E'. injection E' as -> ->.
    cbn [fst cfg mods max_mods] in *. specialize (IHhistory Vb).
    cbn [length]. change (balance (OpRemove x :: r)) with (-1 + balance r).
    split; [tauto|]. do 5 (split; [lia|]).
    intros _. destruct r; [|apply IHhistory; easy]. inversion H0; subst. simpl in *. lia.
Qed.

(* ---------- C07 ---------- *)

Lemma edges_legal_false : forall a, wf a -> nonneg a -> total a = 0 -> (2 <= length (shp a))%nat ->
  Forall (fun d => 0 < d)%nat (tl (shp a)) ->
  config_edges_legal a = Ok false.
Proof.
  intros a W N T R F. unfold config_edges_legal. rewrite shp_sum0, length_tl_shp.
  assert (1 <= ndim a)%nat by (unfold ndim; lia).
  destruct (ndim a) as [|k] eqn:E; [lia|]. cbn [seq edges_loop].
  rewrite shp_sum0, nth_tl_shp.
  assert (0 < nth 1 (shp a) 0)%nat.
  { rewrite <- nth_tl_shp. rewrite Forall_forall in F. apply F. apply nth_In.
    rewrite length_tl_shp. lia. }
  destruct (Nat.eqb_spec (nth 1 (shp a) 0%nat) 0); [lia|].
  destruct (slab_sum (sum0 a) 0 0 =? 0) eqn:Es; auto.
  apply slab_sum_occ in Es; auto; try lia.
  destruct Es as [t [x [_ [_ Ho]]]]. unfold occ in Ho. rewrite total_zero in Ho; auto. lia.
Qed.

Lemma edges_legal_iff : forall a, wf a -> nonneg a -> (2 <= length (shp a))%nat ->
  Forall (fun d => 0 < d)%nat (tl (shp a)) ->
  exists b, config_edges_legal a = Ok b /\ (b = true <-> tight a).
Proof.
  intros a W N R F. destruct (Z.eq_dec (total a) 0) as [T|T].
  - exists false. split; [apply edges_legal_false; auto|]. split; [easy|].
    intros Ht. exfalso. apply (tight_not_free a R Ht). apply phonon_free_total; auto; lia.
  - apply edges_legal_spec; auto. pose proof (total_nonneg _ W N). lia.
Qed.

Lemma mapM_ok : forall {A B} (f : A -> result B) g l,
  (forall x, In x l -> f x = Ok (g x)) -> mapM f l = Ok (map g l).
Proof.
  induction l; simpl; intros; auto. rewrite H by auto. simpl. rewrite IHl by auto. auto.
Qed.

Lemma In_nonzero_positions : forall a t p, In p (nonzero_positions a t) <->
  exists i, inr (tl (shp a)) i /\ nth 0 i 0%nat = p /\ get a (t :: i) <> 0.
Proof.
  intros. unfold nonzero_positions. rewrite in_map_iff. split.
  - intros [i [? Hi]]. apply filter_In in Hi. destruct Hi as [Hi Hg]. apply In_all_idx in Hi.
    exists i. split; auto. split; auto. lia.
  - intros [i [Hi [? ?]]]. exists i. split; auto. apply filter_In. rewrite In_all_idx. split; auto. lia.
Qed.

Lemma occ_inv : forall a t x, (2 <= length (shp a))%nat -> occ a t x <> 0 ->
  exists i, x = map Z.of_nat i /\ (t < ntypes a)%nat /\ inr (tl (shp a)) i /\ get a (t :: i) = occ a t x.
Proof.
  intros a t x R H. unfold occ in *. apply at_nz in H. destruct H as [i [Hi [E G]]].
  apply inr_uncons in Hi; [|lia]. destruct Hi as [t' [j [-> [Ht Hj]]]].
  cbn [map] in E. injection E as E1 E2. apply Nat2Z.inj in E1. subst. exists j. auto.
Qed.

Lemma occ_of : forall a t i, (0 < length (shp a))%nat -> (t < ntypes a)%nat -> inr (tl (shp a)) i ->
  occ a t (map Z.of_nat i) = get a (t :: i).
Proof.
  intros. unfold occ. change (Z.of_nat t :: map Z.of_nat i) with (map Z.of_nat (t :: i)).
  apply at_of. apply inr_cons; auto.
Qed.

Lemma hd_map_of_nth : forall i, hd 0 (map Z.of_nat i) = Z.of_nat (nth 0 i 0%nat).
Proof. destruct i; auto. Qed.

Lemma extent_of_spec : forall a t e, (2 <= length (shp a))%nat -> (t < ntypes a)%nat ->
  (Z.of_nat (extent_of a t) <= e <-> within_extent a t e).
Proof.
  intros a t e R Ht. unfold extent_of, within_extent.
  set (w := nonzero_positions a t).
  assert (Hin : forall x, occ a t x <> 0 -> exists p, In p w /\ hd 0 x = Z.of_nat p).
  { intros x Hx. destruct (occ_inv _ _ _ R Hx) as [i [-> [_ [Hi G]]]].
    exists (nth 0 i 0%nat). split; [|apply hd_map_of_nth].
    apply In_nonzero_positions. exists i. split; auto. split; auto. lia. }
  assert (Hout : forall p, In p w -> exists x, occ a t x <> 0 /\ hd 0 x = Z.of_nat p).
  { intros p Hp. apply In_nonzero_positions in Hp. destruct Hp as [i [Hi [Hp G]]].
    exists (map Z.of_nat i). rewrite occ_of by (auto; lia). rewrite hd_map_of_nth, Hp. auto. }
  destruct (Nat.ltb_spec (length w) 2) as [Hlt|Hge].
  - destruct w as [|p [|q r]] eqn:Ew; simpl in *; try lia.
    + split; [|lia]. intros. split; [lia|]. intros. destruct (Hin x H0) as [? [? _]]. easy.
    + split.
      * intros. split; [lia|]. intros x y Hx Hy.
        destruct (Hin x Hx) as [? [[<-|[]] ->]]. destruct (Hin y Hy) as [? [[<-|[]] ->]]. lia.
      * intros [_ H]. destruct (Hout p) as [x [Hx Ex]]; auto. specialize (H x x Hx Hx). lia.
  - assert (Hne : w <> []) by (destruct w; simpl in *; [lia|easy]).
    pose proof (lmax_In w Hne) as Hmax. pose proof (lmin_In w Hne) as Hmin.
    pose proof (lmin_le w _ Hmax). split.
    + intros. split; [lia|]. intros x y Hx Hy.
      destruct (Hin x Hx) as [p [Hp ->]]. destruct (Hin y Hy) as [q [Hq ->]].
      pose proof (lmax_ge _ _ Hp). pose proof (lmin_le _ _ Hq). lia.
    + intros [_ H0]. destruct (Hout _ Hmax) as [x [Hx Ex]]. destruct (Hout _ Hmin) as [y [Hy Ey]].
      specialize (H0 x y Hx Hy). lia.
Qed.

Lemma existsb_map_false : forall {A} (f : A -> bool) l,
  negb (existsb (fun b => b) (map f l)) = true <-> (forall x, In x l -> f x = false).
Proof.
  intros. rewrite negb_true_iff. induction l; simpl.
  - split; auto; easy.
  - rewrite orb_false_iff, IHl. split.
    + intros [? ?] x [->|?]; auto.
    + intros H. split; auto.
Qed.

Lemma extent_check_spec : forall a pe, (2 <= length (shp a))%nat -> (ntypes a <= length pe)%nat ->
  exists b, extent_check a pe = Ok b /\
    (b = true <-> forall t, (t < ntypes a)%nat -> within_extent a t (nth t pe 0)).
Proof.
  intros a pe R L. unfold extent_check. fold (ntypes a).
  rewrite mapM_ok with (g := fun t => nth t pe 0 <? Z.of_nat (extent_of a t)).
  - cbn [bind]. eexists. split; [reflexivity|]. rewrite existsb_map_false. split.
    + intros H t Ht. apply extent_of_spec; auto. specialize (H t). rewrite in_seq in H.
      assert (nth t pe 0 <? Z.of_nat (extent_of a t) = false) by (apply H; lia). lia.
    + intros H t Ht. apply in_seq in Ht. specialize (H t ltac:(lia)).
      apply extent_of_spec in H; auto; lia.
  - intros t Ht. apply in_seq in Ht. rewrite (nth_error_nth' pe 0) by lia. auto.
Qed.

Lemma number_check_spec : forall a pn, (ntypes a <= length pn)%nat ->
  exists b, number_check a pn = Ok b /\
    (b = true <-> forall t, (t < ntypes a)%nat -> total_type a t <= nth t pn 0).
Proof.
  intros a pn L. unfold number_check. fold (ntypes a).
  rewrite mapM_ok with (g := fun t => nth t pn 0 <? total_type a t).
  - cbn [bind]. eexists. split; [reflexivity|]. rewrite existsb_map_false. split.
    + intros H t Ht. specialize (H t). rewrite in_seq in H.
      assert (nth t pn 0 <? total_type a t = false) by (apply H; lia). lia.
    + intros H t Ht. apply in_seq in Ht. specialize (H t ltac:(lia)). lia.
  - intros t Ht. apply in_seq in Ht. rewrite (nth_error_nth' pn 0) by lia. auto.
Qed.

Lemma site_check_spec : forall a m, wf a -> (2 <= length (shp a))%nat -> nonneg a -> 0 < total a ->
  (forallb (fun x => x <=? m) (dat a) = true <-> forall t x, occ a t x <= m).
Proof.
  intros a m W R N T. rewrite forallb_forall. split.
  - intros H t x. destruct (Z.eq_dec (occ a t x) 0) as [E|E].
    + (* some entry is positive, hence m is positive *)
      apply total_pos_ex in T; auto. destruct T as [y Hy].
      assert (Q : at_ a y <> 0) by lia. apply at_nz in Q. destruct Q as [i [Hi [-> G]]].
      specialize (H (get a i)). assert (get a i <=? m = true); [|lia].
      apply H. apply dat_In_get; eauto.
    + destruct (occ_inv _ _ _ R E) as [i [-> [Ht [Hi G]]]]. rewrite <- G.
      specialize (H (get a (t :: i))). assert (get a (t :: i) <=? m = true); [|lia].
      apply H. apply dat_In_get; auto. exists (t :: i). split; auto. apply inr_cons; auto; lia.
  - intros H v Hv. apply dat_In_get in Hv; auto. destruct Hv as [i [Hi <-]].
    apply inr_uncons in Hi as Hi'; [|lia]. destruct Hi' as [t [j [-> [Ht Hj]]]].
    specialize (H t (map Z.of_nat j)). rewrite occ_of in H by (auto; lia). lia.
Qed.

Lemma config_legal_spec : forall a mps pe pn green,
  wf a -> Forall (fun d => 0 < d)%nat (tl (shp a)) ->
  (green = true -> nonneg a /\ (1 <= length (shp a))%nat) ->
  (forall e, pe = Some e -> (ntypes a <= length e)%nat) ->
  (forall n, pn = Some n -> (ntypes a <= length n)%nat) ->
  exists b, config_legal a mps pe pn green = Ok b /\ (b = true <-> legal_spec a mps pe pn green).
Proof.
  intros a mps pe pn green W F Hg He Hn. unfold config_legal, legal_spec.
  destruct (green && (total a =? 0)) eqn:G.
  { apply andb_true_iff in G. destruct G as [-> G]. destruct (Hg eq_refl) as [N L].
    exists true. split; auto. split; auto. intros _. left. split; auto.
    apply phonon_free_total; auto; lia. }
  assert (Hng : ~ (green = true /\ phonon_free a)).
  { intros [-> Hf]. destruct (Hg eq_refl) as [N L]. apply phonon_free_total in Hf; auto.
    rewrite Hf in G. easy. }
  unfold config_shape_legal. destruct (Nat.leb_spec 2 (length (shp a))) as [R|R]; cbn [negb].
  2:{ exists false. split; auto. split; [easy|]. intros [?|[? _]]; [easy|lia]. }
  destruct (config_values_legal a) eqn:V; cbn [negb].
  2:{ exists false. split; auto. split; [easy|]. intros [?|[_ [N _]]]; [easy|].
      apply occ_nonneg in N; [|lia]. apply nonneg_values in N; auto. congruence. }
  apply nonneg_values in V; auto.
  destruct (edges_legal_iff a W V R F) as [e [Ee Hed]]. rewrite Ee. cbn [bind].
  destruct e; cbn [negb].
  2:{ exists false. split; auto. split; [easy|]. intros [?|[_ [_ [T _]]]]; [easy|]. apply Hed in T. easy. }
  assert (Ti : tight a) by tauto.
  assert (T : 0 < total a).
  { pose proof (total_nonneg _ W V). destruct (Z.eq_dec (total a) 0); [|lia].
    exfalso. apply (tight_not_free a R Ti). apply phonon_free_total; auto; lia. }
  assert (Hs : (match mps with Some m => forallb (fun x => x <=? m) (dat a) | None => true end) = true
      <-> (forall m, mps = Some m -> forall t x, occ a t x <= m)).
  { destruct mps as [m|].
    - rewrite site_check_spec by auto. split; intros.
      + injection H0 as <-. auto.
      + apply H; auto.
    - split; auto; intros; easy. }
  destruct (match mps with Some m => forallb (fun x => x <=? m) (dat a) | None => true end) eqn:Es; cbn [negb].
  2:{ exists false. split; auto. split; [easy|]. intros [?|[_ [_ [_ [Q _]]]]]; [easy|].
      apply Hs in Q. easy. }
  assert (He' : exists b, (match pe with Some l => extent_check a l | None => Ok true end) = Ok b /\
     (b = true <-> forall e, pe = Some e -> forall t, (t < ntypes a)%nat -> within_extent a t (nth t e 0))).
  { destruct pe as [e|].
    - destruct (extent_check_spec a e R (He e eq_refl)) as [b [E1 E2]]. exists b. split; auto.
      rewrite E2. split; intros; [injection H0 as <-; auto|apply H; auto].
    - exists true. split; auto. split; auto. intros; easy. }
  destruct He' as [be [E1 E2]]. rewrite E1. cbn [bind].
  destruct be; cbn [negb].
  2:{ exists false. split; auto. split; [easy|]. intros [?|[_ [_ [_ [_ [Q _]]]]]]; [easy|].
      apply E2 in Q. easy. }
  assert (Hn' : exists b, (match pn with Some l => number_check a l | None => Ok true end) = Ok b /\
     (b = true <-> forall n, pn = Some n -> forall t, (t < ntypes a)%nat -> total_type a t <= nth t n 0)).
  { destruct pn as [n|].
    - destruct (number_check_spec a n (Hn n eq_refl)) as [b [E3 E4]]. exists b. split; auto.
      rewrite E4. split; intros; [injection H0 as <-; auto|apply H; auto].
    - exists true. split; auto. split; auto. intros; easy. }
  destruct Hn' as [bn [E3 E4]]. rewrite E3. cbn [bind].
  exists bn. split; auto. rewrite E4. split.
  - intros H. right. split; auto. split; [apply occ_nonneg; auto; lia|]. tauto.
  - intros [?|H]; [easy|]. tauto.
Qed.

(* ---------- statements used verbatim by Props_Config ---------- *)

Lemma config_init_spec : forall a mm m, wf a ->
  ((exists c, config_init a mm m = Ok c) <-> valid_cloud a) /\
  (valid_cloud a -> config_init a mm m = Ok (mkConfig a mm m)) /\
  (~ valid_cloud a -> config_init a mm m = Err SystemExit).
Proof.
  intros a mm m W. pose proof (validate_iff a W) as H. pose proof (fun e => validate_err a e W) as He.
  unfold config_init. destruct (validate_config_is_legal a) as [[]|e] eqn:E; cbn [bind].
  - assert (valid_cloud a) by (apply H; auto). split; [split; eauto|]. split; auto. tauto.
  - assert (~ valid_cloud a) by (intros Q; apply H in Q; easy).
    split; [split; [intros [c Q]; easy|tauto]|]. split; [tauto|]. intros _.
    rewrite (He e); auto.
Qed.

Lemma remove_spec_prop : forall a mm m t loc,
  valid_cloud a -> m < mm -> 0 < occ a t loc ->
  exists b s,
    remove_phonon (mkConfig a mm m) (Z.of_nat t :: loc) = Ok (mkConfig b mm (m + 1), s) /\
    valid_cloud b /\
    modified_by a b (shift_vec (ndim a) s) t loc (-1) /\
    total b = total a - 1 /\
    (total b = 0 -> s = SScalar 0 /\ shp b = shp a).
Proof.
  intros a mm m t loc V Hm Ho.
  destruct (remove_spec a mm m t loc V Hm Ho) as [b [s [E [Vb [Mb [Tb [Ps Z0]]]]]]].
  exists b, s. do 4 (split; auto). intros T0. split; [|apply Z0; auto].
  pose proof E as E0. unfold remove_phonon in E. cbn [cfg max_mods mods] in E.
  destruct (m <? mm); [|easy]. cbn [guard bind] in E.
  destruct (Nat.eqb (length (Z.of_nat t :: loc)) (length (shp a))); [|easy]. cbn [guard bind] in E.
  destruct (norm_indexes (shp a) (Z.of_nat t :: loc)) as [i|] eqn:En; [|easy].
  destruct (norm_indexes_inr _ _ _ En) as [I1 _].
  destruct (0 <=? get (upd a i (-1)) i); [|easy]. cbn [guard bind] in E.
  unfold reduction_rules in E.
  assert (total (upd a i (-1)) = 0) by (rewrite total_upd; auto; [lia|apply valid_wf; auto]).
  rewrite H in E. cbn in E. congruence.
Qed.

Lemma add_spec_prop : forall a mm m t loc,
  valid_cloud a -> ~ phonon_free a -> m < mm -> (t < ntypes a)%nat -> length loc = ndim a ->
  exists b s,
    add_phonon (mkConfig a mm m) (Z.of_nat t :: loc) = Ok (mkConfig b mm (m + 1), SVec s) /\
    valid_cloud b /\
    modified_by a b (oppv s) t loc 1 /\
    total b = total a + 1 /\
    s = map (fun z => Z.max (- z) 0) loc.
Proof.
  intros. destruct (add_spec a mm m t loc) as [b [s [E [? [? [? [? ?]]]]]]]; auto.
  exists b, s. auto.
Qed.

Lemma norm_indexes_mod : forall s x i, norm_indexes s x = Some i ->
  map Z.of_nat i = map (fun p => snd p mod Z.of_nat (fst p)) (combine s x).
Proof.
  induction s; destruct x; simpl; intros; try easy.
  - injection H as <-. auto.
  - destruct (norm_indexes_inr (a :: s) (z :: x) i H) as [_ [_ I3]].
    destruct (norm_index a z) eqn:E; [|easy].
    destruct (norm_indexes s x) eqn:E2; [|easy]. injection H as <-. simpl.
    rewrite (IHs _ _ E2). f_equal. apply (I3 0%nat). simpl. lia.
Qed.

Lemma remove_wraps : forall a mm m x b s, valid_cloud a ->
  remove_phonon (mkConfig a mm m) x = Ok (b, s) ->
  m < mm /\ exists t loc,
    Z.of_nat t :: map Z.of_nat loc
      = map (fun p => snd p mod Z.of_nat (fst p)) (combine (shp a) x) /\
    0 < occ a t (map Z.of_nat loc) /\
    remove_phonon (mkConfig a mm m) (Z.of_nat t :: map Z.of_nat loc) = Ok (b, s).
Proof.
  intros a mm m x b s V E. destruct (remove_ok_inv _ _ _ _ _ _ V E) as [Hm [t [loc [En [Ho E2]]]]].
  split; auto. exists t, loc. split; auto. apply norm_indexes_mod in En. auto.
Qed.

Lemma add_outcome_iff : forall a mm m x, valid_cloud a ->
  ((m < mm /\ length x = length (shp a) /\ 0 <= hd (-1) x < Z.of_nat (ntypes a)) <->
   exists r, add_phonon (mkConfig a mm m) x = Ok r) /\
  (~ (m < mm /\ length x = length (shp a) /\ 0 <= hd (-1) x < Z.of_nat (ntypes a)) <->
   add_phonon (mkConfig a mm m) x = Err SystemExit).
Proof.
  intros a mm m x V. pose proof (valid_rank _ V).
  destruct (add_outcome a mm m x (valid_wf _ V) ltac:(lia)) as [[Hm [Hl [Ht [r E]]]]|[N E]]; rewrite E.
  - split; split; intros; eauto; try easy. destruct H0. auto.
  - split; split; intros; auto; try easy. destruct H0. easy.
Qed.
