(** The reflection of the chain (C47). *)
From Coq Require Import String ZArith List Bool Lia Permutation Ring.
From Verif Require Import Base NdArray NdArray_proofs Config Spec Spec_ops Config_proofs Modify_proofs Legal_proofs
  Model HModel Space Spec_space Space_proofs Count_proofs Render Render_proofs Term Equation System Spec_engine
  Term_proofs Equation_proofs System_proofs Prime_proofs Engine_proofs Order_proofs Ring Coef Spec_eom Eom_proofs
  Solvers Spec_solve Sysok_proofs Sparse_proofs Spec_model Spec_sym Rows_proofs Sym_proofs.
Import ListNotations.
Open Scope list_scope.
Open Scope Z_scope.

(** * Reversed clouds *)
Definition len (a : nd) : nat := nth 1 (shp a) 0%nat.
Definition mrev (a : nd) : nd := tab (shp a) (fun i => match i with [t; x] => get a [t; (len a - 1 - x)%nat] | _ => 0 end).

Section Rev.
Variables (a : nd) (nt L : nat).
Hypothesis Sh : shp a = [nt; L].

Lemma len_L : len a = L. Proof. unfold len. rewrite Sh. reflexivity. Qed.
Lemma rev_shp : shp (mrev a) = [nt; L]. Proof. exact Sh. Qed.
Lemma rev_len : len (mrev a) = L. Proof. unfold len. rewrite rev_shp. reflexivity. Qed.
Lemma rev_wf : wf (mrev a). Proof. apply wf_tab. Qed.

Lemma inr2 : forall i, inr [nt; L] i <-> exists t x, i = [t; x] /\ (t < nt)%nat /\ (x < L)%nat.
Proof.
  intros i. split.
  - intros H. inversion H as [|? ? ? ? H1 H2]; subst. inversion H2 as [|? ? ? ? H3 H4]; subst. inversion H4; subst. eauto.
  - intros [t [x [-> [H1 H2]]]]. repeat constructor; assumption.
Qed.

Lemma get_rev : forall t x, (t < nt)%nat -> (x < L)%nat -> get (mrev a) [t; x] = get a [t; (L - 1 - x)%nat].
Proof. intros t x Ht Hx. unfold mrev. rewrite get_tab; [rewrite len_L; reflexivity|]. rewrite Sh. apply inr2. eauto. Qed.

Lemma occ2 : forall b, shp b = [nt; L] -> forall t x, occ b t [x] = if (t <? nt)%nat && (0 <=? x) && (x <? Z.of_nat L) then get b [t; Z.to_nat x] else 0.
Proof.
  intros b Sb t x. unfold occ, at_. rewrite Sb. cbn [inb map]. rewrite Nat2Z.id.
  destruct (Nat.ltb_spec t nt); destruct (0 <=? x) eqn:E1; destruct (x <? Z.of_nat L) eqn:E2; cbn [andb];
    destruct (0 <=? Z.of_nat t) eqn:E3; destruct (Z.of_nat t <? Z.of_nat nt) eqn:E4; cbn [andb]; try reflexivity; exfalso; lia.
Qed.

Lemma occ_rev : forall t x, occ (mrev a) t [x] = occ a t [Z.of_nat L - 1 - x].
Proof.
  intros t x. rewrite (occ2 (mrev a) rev_shp), (occ2 a Sh).
  destruct (Nat.ltb_spec t nt) as [Ht|Ht]; cbn [andb]; [|reflexivity].
  destruct (0 <=? x) eqn:E1; destruct (x <? Z.of_nat L) eqn:E2; destruct (0 <=? Z.of_nat L - 1 - x) eqn:E3;
    destruct (Z.of_nat L - 1 - x <? Z.of_nat L) eqn:E4; cbn [andb]; try reflexivity; try (exfalso; lia).
  rewrite get_rev by lia. do 2 f_equal. f_equal. lia.
Qed.

Lemma occ_other : forall b, shp b = [nt; L] -> forall t x, List.length x <> 1%nat -> occ b t x = 0.
Proof.
  intros b Sb t x H. destruct (Z.eq_dec (occ b t x) 0) as [E|E]; [exact E|]. exfalso. apply H.
  rewrite (occ_length b t x E); [unfold ndim; rewrite Sb; reflexivity|rewrite Sb; simpl; lia].
Qed.

Lemma rev_type : forall t, (t < nt)%nat -> total_type (mrev a) t = total_type a t.
Proof.
  intros t Ht. unfold total_type. rewrite rev_shp, Sh. cbn [tl].
  assert (I : forall i, In i (all_idx [L]) <-> exists x, i = [x] /\ (x < L)%nat).
  { intros i. rewrite In_all_idx. split.
    - intros H. inversion H as [|? ? ? ? H1 H2]; subst. inversion H2; subst. eauto.
    - intros [x [-> Hx]]. repeat constructor; assumption. }
  assert (P : Permutation (map (fun i => match i with [x] => [(L - 1 - x)%nat] | _ => i end) (all_idx [L])) (all_idx [L])).
  { apply NoDup_Permutation; [apply NoDup_map_inj; [|apply NoDup_all_idx]|apply NoDup_all_idx|].
    - intros i j Hi Hj E. apply I in Hi, Hj. destruct Hi as [x [-> Hx]], Hj as [y [-> Hy]]. f_equal. assert ((L - 1 - x)%nat = (L - 1 - y)%nat) by congruence. lia.
    - intros i. rewrite in_map_iff. split.
      + intros [j [<- Hj]]. apply I in Hj. destruct Hj as [x [-> Hx]]. apply I. exists (L - 1 - x)%nat. split; [reflexivity|lia].
      + intros Hi. apply I in Hi. destruct Hi as [x [-> Hx]]. exists [(L - 1 - x)%nat]. split; [f_equal; lia|]. apply I. exists (L - 1 - x)%nat. split; [reflexivity|lia]. }
  rewrite <- (sumZ_perm _ _ (Permutation_map (fun i => get a (t :: i)) P)). rewrite map_map. f_equal. apply map_ext_in.
  intros i Hi. apply I in Hi. destruct Hi as [x [-> Hx]]. rewrite get_rev by assumption. reflexivity.
Qed.

Lemma rev_total : wf a -> total (mrev a) = total a.
Proof.
  intros W. rewrite (total_types a W) by (rewrite Sh; simpl; lia). rewrite (total_types (mrev a) rev_wf) by (rewrite rev_shp; simpl; lia).
  unfold ntypes. rewrite rev_shp, Sh. cbn [hd]. f_equal. apply map_ext_in. intros t Ht. apply in_seq in Ht. apply rev_type. lia.
Qed.

Lemma rev_valid : valid_cloud a -> valid_cloud (mrev a).
Proof.
  intros V. pose proof V as [W [R [N FT]]]. split; [apply rev_wf|]. split; [rewrite rev_shp; simpl; lia|]. split.
  - intros t x. destruct (Nat.eq_dec (List.length x) 1) as [E|E].
    + destruct x as [|y [|]]; try discriminate. rewrite occ_rev. apply N.
    + rewrite (occ_other (mrev a) rev_shp t x E). lia.
  - destruct FT as [F|Ti].
    + left. intros t x. destruct (Nat.eq_dec (List.length x) 1) as [E|E].
      * destruct x as [|y [|]]; try discriminate. rewrite occ_rev. apply F.
      * apply (occ_other (mrev a) rev_shp t x E).
    + right. intros d Hd. assert (N1 : ndim a = 1%nat) by (unfold ndim; rewrite Sh; reflexivity).
      assert (N1' : ndim (mrev a) = 1%nat) by (unfold ndim; rewrite rev_shp; reflexivity). rewrite N1' in Hd. assert (d = 0)%nat as -> by lia.
      destruct (Ti 0%nat ltac:(lia)) as [T1 T2]. rewrite rev_shp. rewrite Sh in T2. cbn [nth] in *.
      apply (slab_1d a _ N1) in T1. apply (slab_1d a _ N1) in T2. split; apply (slab_1d (mrev a) _ N1').
      * destruct T2 as [t Ht]. exists t. rewrite occ_rev. replace (Z.of_nat L - 1 - 0) with (Z.of_nat L - 1) by lia. exact Ht.
      * destruct T1 as [t Ht]. exists t. rewrite occ_rev. replace (Z.of_nat L - 1 - (Z.of_nat L - 1)) with 0 by lia. exact Ht.
Qed.

Lemma rev_energy : forall {T} (fs : list T) l, energy_of fs a l -> energy_of fs (mrev a) l.
Proof.
  intros T fs l [H1 H2]. unfold energy_of in *. unfold ntypes in *. rewrite rev_shp. rewrite Sh in *. cbn [hd] in *. split; [exact H1|].
  intros t Ht. destruct (H2 t Ht) as [f [E1 E2]]. exists f. split; [exact E1|]. rewrite rev_type by exact Ht. exact E2.
Qed.
End Rev.

Lemma rev_rev : forall a nt L, shp a = [nt; L] -> wf a -> mrev (mrev a) = a.
Proof.
  intros a nt L Sh W. apply nd_ext; [apply wf_tab|exact W|reflexivity|]. intros i Hi.
  assert (Hi' : inr [nt; L] i) by (rewrite <- Sh; exact Hi). apply inr2 in Hi'. destruct Hi' as [t [x [-> [Ht Hx]]]].
  rewrite (get_rev (mrev a) nt L Sh) by assumption. rewrite (get_rev a nt L Sh) by lia. do 2 f_equal. f_equal. lia.
Qed.

Lemma rev_free : forall a nt L, shp a = [nt; L] -> phonon_free a -> phonon_free (mrev a).
Proof.
  intros a nt L Sh F t x. destruct (Nat.eq_dec (List.length x) 1) as [E|E].
  - destruct x as [|y [|]]; try discriminate. rewrite (occ_rev a nt L Sh). apply F.
  - apply (occ_other nt L (mrev a) Sh t x E).
Qed.

Lemma rev_modified : forall a b nt L Lb s t x e, shp a = [nt; L] -> shp b = [nt; Lb] -> modified_by a b [s] t [x] e ->
  modified_by (mrev a) (mrev b) [Z.of_nat L - Z.of_nat Lb - s] t [Z.of_nat L - 1 - x] e.
Proof.
  intros a b nt L Lb s t x e Sa Sb [M1 [M2 [M3 M4]]].
  assert (Na : ndim a = 1%nat) by (unfold ndim; rewrite Sa; reflexivity). assert (Na' : ndim (mrev a) = 1%nat) by exact Na.
  split; [change (shp (mrev b)) with (shp b); change (shp (mrev a)) with (shp a); exact M1|].
  split; [change (ntypes (mrev b)) with (ntypes b); change (ntypes (mrev a)) with (ntypes a); exact M2|].
  split; [rewrite Na'; reflexivity|]. intros t' y Ly. rewrite Na' in Ly. destruct y as [|y [|]]; try discriminate.
  rewrite (occ_rev b nt Lb Sb). rewrite M4 by (rewrite Na; reflexivity). cbn [addv]. rewrite (occ_rev a nt L Sa).
  replace (Z.of_nat L - 1 - (y + (Z.of_nat L - Z.of_nat Lb - s))) with (Z.of_nat Lb - 1 - y + s) by lia.
  f_equal. cbn [eqlZ]. rewrite !andb_true_r.
  replace (y + (Z.of_nat L - Z.of_nat Lb - s) =? Z.of_nat L - 1 - x) with (Z.of_nat Lb - 1 - y + s =? x); [reflexivity|].
  destruct (Z.eqb_spec (Z.of_nat Lb - 1 - y + s) x); destruct (Z.eqb_spec (y + (Z.of_nat L - Z.of_nat Lb - s)) (Z.of_nat L - 1 - x)); lia.
Qed.

Lemma shp2 : forall a nt, List.length (shp a) = 2%nat -> ntypes a = nt -> shp a = [nt; len a].
Proof. intros a nt H E. unfold ntypes, len in *. destruct (shp a) as [|x [|y [|]]]; try discriminate. cbn in *. subst. reflexivity. Qed.

Lemma rev_count : forall f a nt L, shp a = [nt; L] -> count f (mrev a) = count f a.
Proof.
  intros f a nt L Sh. unfold count, ntypes. rewrite (rev_shp a nt L Sh), Sh. cbn [hd]. f_equal. apply map_ext_in. intros t Ht. apply in_seq in Ht.
  rewrite (rev_type a nt L Sh) by lia. reflexivity.
Qed.

Lemma perm_filter : forall {A} (p : A -> bool) l l', Permutation l l' -> Permutation (filter p l) (filter p l').
Proof.
  intros A p l l' H. induction H as [|x l l' H IH|x y l|l1 l2 l3 H1 IH1 H2 IH2]; cbn [filter].
  - constructor.
  - destruct (p x); [constructor|]; exact IH.
  - destruct (p x), (p y); try apply Permutation_refl. constructor.
  - eapply perm_trans; eassumption.
Qed.

Lemma Forall2_both : forall {A B} (R : A -> B -> Prop) l l', Forall2 R l l' -> Forall2 (fun x y => R x y /\ In x l /\ In y l') l l'.
Proof.
  intros A B R l l' H. induction H as [|x y l l' Rxy H IH]; constructor; [simpl; auto|]. eapply Forall2_impl; [|exact IH]. simpl. tauto.
Qed.

Section Mirror.
Context {T : Type} {K : cring}.
Add Ring KRmi : (klaws K).
Variables (m : model T) (ae : Z) (e e' : env T K) (f : nat -> bool).
Hypothesis G : good_model m ae.
Hypothesis O : opposite e e'.
Variable ops' : list (hterm T).
Let ops := h_terms (m_ham m).
Hypothesis P : Permutation ops ops'.
Hypothesis F : Forall2 (mirror_op e f) ops ops'.
Let sc (h : hterm T) : K := if f (ht_index h) then kopp k1 else k1.

Lemma space_shape : forall a, space m ae a -> shp a = [m_ntypes m; len a].
Proof. intros a Sa. destruct (space_unfold m ae a Sa) as [_ [_ [_ [_ [_ [[z [E _]] _]]]]]]. rewrite E. unfold len. rewrite E. reflexivity. Qed.

Lemma rev_space1 : forall a, space m ae a -> space m ae (mrev a).
Proof.
  intros a Sa. pose proof (space_shape a Sa) as Sh. destruct (space_unfold m ae a Sa) as [V [NF [Pt [_ [_ [[z [E Hz]] [_ [L1 [L2 L3]]]]]]]]].
  apply space_intro.
  - apply (rev_valid a _ _ Sh V).
  - intros Fr. apply NF. apply (rev_free _ _ _ (rev_shp a _ _ Sh)) in Fr. rewrite (rev_rev a _ _ Sh (valid_wf a V)) in Fr. exact Fr.
  - exists z. split; [change (shp (mrev a)) with (shp a); exact E|lia].
  - intros k Ek t x. destruct (Nat.eq_dec (List.length x) 1) as [Lx|Lx].
    + destruct x as [|y [|]]; try discriminate. rewrite (occ_rev a _ _ Sh). apply L1; exact Ek.
    + rewrite (occ_other _ _ (mrev a) (rev_shp a _ _ Sh) t x Lx). pose proof (gm_mps _ _ G k Ek). lia.
  - intros t Ht. destruct (L2 t Ht) as [W1 W2]. split; [exact W1|]. intros x y Hx Hy.
    destruct (Nat.eq_dec (List.length x) 1) as [Lx|Lx]; [|rewrite (occ_other _ _ (mrev a) (rev_shp a _ _ Sh) t x Lx) in Hx; lia].
    destruct (Nat.eq_dec (List.length y) 1) as [Ly|Ly]; [|rewrite (occ_other _ _ (mrev a) (rev_shp a _ _ Sh) t y Ly) in Hy; lia].
    destruct x as [|x [|]]; try discriminate. destruct y as [|y [|]]; try discriminate. rewrite (occ_rev a _ _ Sh) in Hx, Hy.
    specialize (W2 _ _ Hy Hx). cbn [hd] in *. lia.
  - intros t Ht. rewrite (rev_type a _ _ Sh t Ht). apply L3; exact Ht.
Qed.

Lemma mod_shape : forall a b s t x z, space m ae a -> modified_by a b s t x z -> shp b = [m_ntypes m; len b].
Proof.
  intros a b s t x z Sa [M1 [M2 _]]. pose proof (space_shape a Sa) as Sh. apply shp2; [rewrite M1, Sh; reflexivity|rewrite M2; unfold ntypes; rewrite Sh; reflexivity].
Qed.

Lemma rev_acts1 : forall a h h' x, space m ae a -> In h ops -> ht_dag h' = ht_dag h -> ht_index h' = ht_index h ->
  acts_at m ae a h [x] -> acts_at m ae (mrev a) h' [Z.of_nat (len a) - 1 - x].
Proof.
  intros a h h' x Sa Hh D I [_ A]. pose proof (space_shape a Sa) as Sh. split; [reflexivity|]. rewrite D, I. destruct (ht_dag h).
  - destruct A as [b [s [Vb [M Sb]]]]. pose proof (space_shape b Sb) as Sh'. destruct (space_unfold m ae a Sa) as [_ [_ [_ [_ [N1 _]]]]].
    pose proof M as [_ [_ [Ls _]]]. rewrite N1 in Ls. destruct s as [|s [|]]; try discriminate.
    exists (mrev b), [Z.of_nat (len a) - Z.of_nat (len b) - s]. split; [apply (rev_valid b _ _ Sh' Vb)|]. split; [apply (rev_modified a b _ _ _ s _ x 1 Sh Sh' M)|apply rev_space1; exact Sb].
  - rewrite (occ_rev a _ _ Sh). replace (Z.of_nat (len a) - 1 - (Z.of_nat (len a) - 1 - x)) with x by lia. exact A.
Qed.

Lemma rev_acts : forall a h h' x, space m ae a -> In h ops -> In h' ops -> ht_dag h' = ht_dag h -> ht_index h' = ht_index h ->
  (acts_at m ae a h [x] <-> acts_at m ae (mrev a) h' [Z.of_nat (len a) - 1 - x]).
Proof.
  intros a h h' x Sa Hh Hh' D I. split; [apply rev_acts1; assumption|]. intros A.
  apply (rev_acts1 (mrev a) h' h _ (rev_space1 a Sa) Hh' (eq_sym D) (eq_sym I)) in A. pose proof (space_shape a Sa) as Sh.
  rewrite (rev_rev a _ _ Sh) in A by (apply valid_wf; apply (space_unfold m ae a Sa)). change (len (mrev a)) with (len a) in A.
  replace (Z.of_nat (len a) - 1 - (Z.of_nat (len a) - 1 - x)) with x in A by lia. exact A.
Qed.

(** Facts on phases at the opposite momentum. *)
Lemma ph_neg : forall d, ph e [d] = ph e' [- d].
Proof. intros d. rewrite (op_ph _ _ O), Z.opp_involutive. reflexivity. Qed.
Lemma ph'_hom : forall d d', kmul (ph e' [d]) (ph e' [d']) = ph e' [d + d'].
Proof. intros d d'. rewrite !(op_ph _ _ O), <- (op_hom _ _ O). do 2 f_equal. lia. Qed.
Lemma ph'_one : ph e' [0] = k1. Proof. rewrite (op_ph _ _ O). apply (op_one _ _ O). Qed.

Lemma mirror1 : forall h h', In h ops -> In h' ops -> mirror_op e f h h' -> psi1 h' = - psi1 h /\ phi1 h' = - phi1 h.
Proof.
  intros h h' H H' [E1 [E2 _]]. destruct (vec1 m ae G h H) as [V1 V2]. unfold psi1, phi1. rewrite E1, E2, V1, V2. auto.
Qed.

Definition miru (u : nd * list Z -> K) (p : nd * list Z) : K :=
  let a := fst p in
  if total a =? 0 then u p
  else kmul (kmul (sgnf f a) (ph e' [2 * (Z.of_nat (len a) - 1)])) (u (mrev a, [- hd 0 (snd p) - 2 * (Z.of_nat (len a) - 1)])).

Lemma miru_proper : forall u, proper u -> proper (miru u).
Proof.
  intros u Pu a a' d V V' F0 F0'. unfold miru. cbn [fst]. rewrite (proj2 (valid_total_free a V) F0), (proj2 (valid_total_free a' V') F0').
  apply Pu; assumption.
Qed.

Lemma ops_mirror : forall h, In h ops -> exists h', In h' ops /\ mirror_op e f h h'.
Proof.
  intros h Hh. destruct (Forall2_ex_l _ _ _ F h Hh) as [h' [H' M]]. exists h'. split; [|exact M]. apply (Permutation_in _ (Permutation_sym P)). exact H'.
Qed.

Lemma mirror_summand : forall u a h h' x l d, proper u -> space m ae a -> In h ops -> In h' ops -> acts_at m ae a h [x] -> mirror_op e f h h' ->
  summand e (miru u) l a d h x =
  kmul (kmul (sgnf f a) (ph e' [2 * (Z.of_nat (len a) - 1)])) (summand e' u l (mrev a) (- d - 2 * (Z.of_nat (len a) - 1)) h' (Z.of_nat (len a) - 1 - x)).
Proof.
  intros u a h h' x l d Pu Sa Hh Hh' A M. destruct (mirror1 h h' Hh Hh' M) as [Epsi Ephi]. destruct M as [_ [_ [D [I C]]]].
  pose proof (space_shape a Sa) as Sh. destruct (space_unfold m ae a Sa) as [Va [_ [_ [NT [N1 _]]]]].
  pose proof (proj1 (rev_acts a h h' x Sa Hh Hh' D I) A) as A'. pose proof (rev_space1 a Sa) as Sa'.
  destruct (next_spec m ae G a h x Sa Hh A) as [Vb [Mb [Tb _]]]. destruct (next_spec m ae G (mrev a) h' _ Sa' Hh' A') as [Vb' [Mb' [Tb' _]]].
  assert (SG : sgnf f (fst (next a h x)) = kmul (sc h) (sgnf f a)).
  { eapply sgnf_modified; [exact Va|exact Vb|exact Mb|rewrite N1; reflexivity|rewrite NT; apply (gm_index _ _ G h Hh)|]. unfold sgn. destruct (ht_dag h); auto. }
  assert (SQ : kmul (sc h) (sc h) = k1) by (unfold sc; destruct (f _); ring).
  assert (ES : sgn h' = sgn h) by (unfold sgn; rewrite D; reflexivity).
  rewrite (rev_total a _ _ Sh (valid_wf a Va)), ES in Tb'.
  remember (next a h x) as n eqn:En. destruct n as [b s]. remember (next (mrev a) h' (Z.of_nat (len a) - 1 - x)) as n' eqn:En'. destruct n' as [b' s']. cbn [fst snd] in *.
  assert (J : jump e (miru u) (b, s) (phi1 h - 2 * x) = kmul (kmul (kmul (sc h) (sgnf f a)) (ph e' [2 * (Z.of_nat (len a) - 1)]))
      (jump e' u (b', s') (phi1 h' - 2 * (Z.of_nat (len a) - 1 - x)))).
  { unfold jump. cbn [fst snd]. rewrite Tb, Tb'. destruct (Z.eqb_spec (total a + sgn h) 0) as [Z0|Z0].
    - unfold miru. cbn [fst snd]. rewrite Tb, Z0. cbn [Z.eqb].
      assert (Fb : phonon_free b) by (apply valid_total_free; [exact Vb|lia]). assert (Fb' : phonon_free b') by (apply valid_total_free; [exact Vb'|lia]).
      rewrite (Pu b b' [0] Vb Vb' Fb Fb'). rewrite <- SG, (sgnf_free f b Vb Fb). rewrite ph_neg.
      transitivity (kmul (kmul (ph e' [2 * (Z.of_nat (len a) - 1)]) (ph e' [phi1 h' - 2 * (Z.of_nat (len a) - 1 - x)])) (u (b', [0]))); [|ring].
      rewrite ph'_hom, Ephi. do 3 f_equal. f_equal. lia.
    - unfold miru. cbn [fst snd]. rewrite Tb. destruct (Z.eqb_spec (total a + sgn h) 0) as [Z1|_]; [lia|].
      pose proof (mod_shape a b _ _ _ _ Sa Mb) as Shb. pose proof (rev_modified a b _ _ _ s _ x _ Sh Shb Mb) as MR.
      assert (NFb : ~ phonon_free b) by (intros Fr; apply valid_total_free in Fr; [lia|exact Vb]).
      assert (NFr : ~ phonon_free (mrev b)).
      { intros Fr. apply NFb. apply (rev_free _ _ _ (rev_shp b _ _ Shb)) in Fr. rewrite (rev_rev b _ _ Shb (valid_wf b Vb)) in Fr. exact Fr. }
      assert (NFb' : ~ phonon_free b') by (intros Fr; apply valid_total_free in Fr; [lia|exact Vb']).
      rewrite I, ES in Mb'. destruct (modified_unique (mrev a) (mrev b) b' _ _ _ _ _ (rev_valid a _ _ Sh Va) (rev_valid b _ _ Shb Vb) Vb' NFr NFb' MR Mb') as [Eb Es].
      subst b'. assert (Es' : s' = Z.of_nat (len a) - Z.of_nat (len b) - s) by congruence. rewrite Es', Ephi, SG, ph_neg. cbn [hd].
      replace (- (phi1 h - 2 * x + 2 * s) - 2 * (Z.of_nat (len b) - 1)) with (- phi1 h - 2 * (Z.of_nat (len a) - 1 - x) + 2 * (Z.of_nat (len a) - Z.of_nat (len b) - s)) by lia.
      remember (u (mrev b, [- phi1 h - 2 * (Z.of_nat (len a) - 1 - x) + 2 * (Z.of_nat (len a) - Z.of_nat (len b) - s)])) as w.
      transitivity (kmul (kmul (kmul (sc h) (sgnf f a)) (kmul (ph e' [- (-2 * s)]) (ph e' [2 * (Z.of_nat (len b) - 1)]))) w); [ring|].
      transitivity (kmul (kmul (kmul (sc h) (sgnf f a)) (kmul (ph e' [2 * (Z.of_nat (len a) - 1)]) (ph e' [-2 * (Z.of_nat (len a) - Z.of_nat (len b) - s)]))) w); [|ring].
      rewrite !ph'_hom. replace (- (-2 * s) + 2 * (Z.of_nat (len b) - 1)) with (2 * (Z.of_nat (len a) - 1) + -2 * (Z.of_nat (len a) - Z.of_nat (len b) - s)) by lia. reflexivity. }
  unfold summand. rewrite <- En, <- En', J.
  assert (EM : multi (mrev a) h' (Z.of_nat (len a) - 1 - x) = multi a h x).
  { unfold multi. rewrite D, I. destruct (ht_dag h); [reflexivity|]. rewrite (occ_rev a _ _ Sh). do 2 f_equal. lia. }
  assert (EG : g0 e' [psi1 h' - phi1 h' + 2 * (Z.of_nat (len a) - 1 - x) + (- d - 2 * (Z.of_nat (len a) - 1))] l = g0 e [psi1 h - phi1 h + 2 * x + d] l).
  { rewrite (op_g0 _ _ O), <- (op_even _ _ O (psi1 h - phi1 h + 2 * x + d)). do 2 f_equal. rewrite Epsi, Ephi. lia. }
  rewrite EM, EG, (op_ev _ _ O), C. fold (sc h). ring.
Qed.

Lemma mirror_sum : forall u a l d, proper u -> space m ae a ->
  ksum (map (fun h => ksum (map (summand e (miru u) l a d h) (st m ae a h))) ops) =
  kmul (kmul (sgnf f a) (ph e' [2 * (Z.of_nat (len a) - 1)]))
    (ksum (map (fun h => ksum (map (summand e' u l (mrev a) (- d - 2 * (Z.of_nat (len a) - 1)) h) (st m ae (mrev a) h))) ops)).
Proof.
  intros u a l d Pu Sa. rewrite (ksum_perm _ _ (Permutation_map (fun h => ksum (map (summand e' u l (mrev a) (- d - 2 * (Z.of_nat (len a) - 1)) h) (st m ae (mrev a) h))) P)).
  rewrite <- ksum_scal. symmetry. apply ksum_Forall2.
  assert (F4 : Forall2 (fun h h' => (mirror_op e f h h' /\ In h ops) /\ In h' ops) ops ops').
  { eapply Forall2_impl; [|apply (Forall2_both _ _ _ F)]. intros h h' [M [H1 H2]]. split; [split; assumption|]. apply (Permutation_in _ (Permutation_sym P)). exact H2. }
  eapply Forall2_impl; [|exact F4]. intros h h' [[M Hh] Hh']. rewrite <- ksum_scal. symmetry.
  pose proof M as [_ [_ [D [I _]]]].
  assert (PS : Permutation (st m ae (mrev a) h') (map (fun x => Z.of_nat (len a) - 1 - x) (st m ae a h))).
  { destruct (st_spec m ae G a h Sa Hh) as [N1 I1]. destruct (st_spec m ae G (mrev a) h' (rev_space1 a Sa) Hh') as [N2 I2].
    apply NoDup_Permutation; [exact N2|apply NoDup_map_inj; [intros x y _ _ E; lia|exact N1]|]. intros x. rewrite I2, in_map_iff. split.
    - intros A. exists (Z.of_nat (len a) - 1 - x). split; [lia|]. apply I1. apply (rev_acts a h h' _ Sa Hh Hh' D I).
      replace (Z.of_nat (len a) - 1 - (Z.of_nat (len a) - 1 - x)) with x by lia. exact A.
    - intros [y [<- Hy]]. apply I1 in Hy. apply (rev_acts a h h' _ Sa Hh Hh' D I). exact Hy. }
  rewrite (ksum_perm _ _ (Permutation_map (fun x => kmul (kmul (sgnf f a) (ph e' [2 * (Z.of_nat (len a) - 1)])) (summand e' u l (mrev a) (- d - 2 * (Z.of_nat (len a) - 1)) h' x)) PS)).
  rewrite map_map. apply ksum_ext. intros x Hx. apply (st_spec m ae G a h Sa Hh) in Hx. apply mirror_summand; assumption.
Qed.

Lemma single_rev : forall t, (t < m_ntypes m)%nat -> mrev (single_phonon (m_ntypes m) 1 t) = single_phonon (m_ntypes m) 1 t.
Proof.
  intros t Ht. destruct (single_phonon_valid (m_ntypes m) 1 t Ht ltac:(lia)) as [V _].
  assert (Sh : shp (single_phonon (m_ntypes m) 1 t) = [m_ntypes m; 1%nat]) by reflexivity.
  apply nd_ext; [apply wf_tab|apply valid_wf; exact V|reflexivity|]. intros i Hi. change (inr [m_ntypes m; 1%nat] i) in Hi.
  apply inr2 in Hi. destruct Hi as [t' [x [-> [H1 H2]]]]. rewrite (get_rev _ _ _ Sh) by assumption. do 2 f_equal. f_equal. lia.
Qed.

Lemma mirror_reached : forall a d, space m ae a -> reached m ae a d -> reached m ae (mrev a) (- d - 2 * (Z.of_nat (len a) - 1)).
Proof.
  intros a d Sa [[h [Hh [D [Ea Ed]]]]|[b [h [x [s [Sb [Hh [A [M Ed]]]]]]]]]; destruct (ops_mirror h Hh) as [h' [Hh' Mi]]; destruct (mirror1 h h' Hh Hh' Mi) as [Epsi Ephi];
    pose proof Mi as [_ [_ [D' [I' _]]]].
  - left. exists h'. split; [exact Hh'|]. split; [congruence|]. split.
    + rewrite Ea, I'. apply single_rev. apply (gm_index _ _ G h Hh).
    + rewrite Ephi, Ed, Ea. change (len (single_phonon (m_ntypes m) 1 (ht_index h))) with 1%nat. lia.
  - right. exists (mrev b), h', (Z.of_nat (len b) - 1 - x), (Z.of_nat (len b) - Z.of_nat (len a) - s).
    split; [apply rev_space1; exact Sb|]. split; [exact Hh'|]. split; [apply (rev_acts b h h' x Sb Hh Hh' D' I'); exact A|].
    split; [rewrite I'; unfold sgn; rewrite D'; apply (rev_modified b a (m_ntypes m)); [apply space_shape; exact Sb|apply space_shape; exact Sa|exact M]|]. rewrite Ephi, Ed. lia.
Qed.

Lemma single_sgn' : forall h, In h ops -> sgnf f (single_phonon (m_ntypes m) 1 (ht_index h)) = sc h.
Proof.
  intros h Hh. pose proof (gm_index _ _ G h Hh) as Hi. destruct (single_phonon_valid (m_ntypes m) 1 (ht_index h) Hi ltac:(lia)) as [Vs _].
  destruct (vac_valid m) as [Vv [Tv Nv]].
  assert (M : modified_by (vac m) (single_phonon (m_ntypes m) 1 (ht_index h)) [0] (ht_index h) [0] 1).
  { split; [reflexivity|]. split; [reflexivity|]. split; [reflexivity|]. intros t x Lx. rewrite Nv in Lx. rewrite single_phonon_occ by assumption.
    assert (F0 : phonon_free (vac m)) by (apply valid_total_free; assumption). rewrite F0. destruct x as [|y [|]]; try discriminate.
    cbn [addv zerov repeat]. rewrite Z.add_0_r. reflexivity. }
  rewrite (sgnf_modified f _ _ _ _ _ 1 Vv Vs M); [|reflexivity|exact Hi|auto]. unfold sc.
  rewrite (sgnf_free f (vac m) Vv); [ring|apply valid_total_free; assumption].
Qed.

Lemma mirror_green : forall u, ksum (map (gsummand e (miru u) (m_ntypes m)) (filter creation ops)) = ksum (map (gsummand e' u (m_ntypes m)) (filter creation ops)).
Proof.
  intros u. assert (PF : Permutation (filter creation ops) (filter creation ops')).
  { apply perm_filter. exact P. }
  rewrite (ksum_perm _ _ (Permutation_map (gsummand e' u (m_ntypes m)) PF)). symmetry. apply ksum_Forall2.
  assert (F4 : Forall2 (fun h h' => (mirror_op e f h h' /\ In h ops) /\ In h' ops) (filter creation ops) (filter creation ops')).
  { apply (Forall2_filter _ creation creation); [intros h h' [[[_ [_ [D _]]] _] _]; unfold creation; rewrite D; reflexivity|].
    eapply Forall2_impl; [|apply (Forall2_both _ _ _ F)]. intros h h' [M [H1 H2]]. split; [split; assumption|]. apply (Permutation_in _ (Permutation_sym P)). exact H2. }
  eapply Forall2_impl; [|exact F4]. intros h h' [[M Hh] Hh']. destruct (mirror1 h h' Hh Hh' M) as [Epsi Ephi]. destruct M as [_ [_ [D [I C]]]].
  unfold gsummand, miru. cbn [fst snd hd]. destruct (single_phonon_valid (m_ntypes m) 1 (ht_index h) (gm_index _ _ G h Hh) ltac:(lia)) as [Vs [NFs _]].
  destruct (Z.eqb_spec (total (single_phonon (m_ntypes m) 1 (ht_index h))) 0) as [Z0|_]; [exfalso; apply NFs, valid_total_free; assumption|].
  rewrite (single_rev _ (gm_index _ _ G h Hh)), (single_sgn' h Hh). change (len (single_phonon (m_ntypes m) 1 (ht_index h))) with 1%nat.
  change (2 * (Z.of_nat 1 - 1)) with 0. rewrite ph'_one, Z.sub_0_r, (op_ev _ _ O), C, I, (op_G0 _ _ O), Epsi, Ephi. fold (sc h).
  rewrite (ph_neg (psi1 h - phi1 h)). replace (- psi1 h - - phi1 h) with (- (psi1 h - phi1 h)) by lia. ring.
Qed.

Lemma mirror_conditions : forall u g, proper u -> conditions m ae e' u g -> conditions m ae e (miru u) g.
Proof.
  intros u g Pu [C1 C2]. split.
  - intros a d l Sa R El. fold ops. rewrite (mirror_sum u a l d Pu Sa). pose proof (space_shape a Sa) as Sh.
    pose proof (C1 (mrev a) (- d - 2 * (Z.of_nat (len a) - 1)) l (rev_space1 a Sa) (mirror_reached a d Sa R) (rev_energy a _ _ Sh _ l El)) as E. fold ops in E.
    unfold miru at 1. cbn [fst snd hd]. destruct (space_unfold m ae a Sa) as [_ [_ [PT _]]]. destruct (Z.eqb_spec (total a) 0) as [Z0|_]; [lia|].
    match goal with |- kadd (kmul ?c ?x) (kmul ?c ?y) = _ => transitivity (kmul c (kadd x y)); [ring|rewrite E; ring] end.
  - fold ops. rewrite mirror_green. destruct (vac_valid m) as [_ [Tv _]]. unfold miru. cbn [fst]. rewrite Tv. exact C2.
Qed.

Lemma miru_vac : forall u, miru u (vac m, [0]) = u (vac m, [0]).
Proof. intros u. destruct (vac_valid m) as [_ [Tv _]]. unfold miru. cbn [fst]. rewrite Tv. reflexivity. Qed.

(** A zero of the mirrored assignment is a zero. *)
Lemma miru_zero : forall u, (miru u (vac m, [0]) = k0 /\ forall a d, space m ae a -> reached m ae a d -> miru u (a, [d]) = k0) ->
  u (vac m, [0]) = k0 /\ forall a d, space m ae a -> reached m ae a d -> u (a, [d]) = k0.
Proof.
  intros u [Z1 Z2]. split; [rewrite miru_vac in Z1; exact Z1|]. intros a d Sa R.
  pose proof (Z2 _ _ (rev_space1 a Sa) (mirror_reached a d Sa R)) as E. unfold miru in E. cbn [fst snd hd] in E.
  pose proof (space_shape a Sa) as Sh. destruct (space_unfold m ae a Sa) as [Va [_ [PT _]]]. rewrite (rev_total a _ _ Sh (valid_wf a Va)) in E.
  destruct (Z.eqb_spec (total a) 0) as [Z0|_]; [lia|]. rewrite (rev_rev a _ _ Sh (valid_wf a Va)) in E. change (len (mrev a)) with (len a) in E.
  replace (- (- d - 2 * (Z.of_nat (len a) - 1)) - 2 * (Z.of_nat (len a) - 1)) with d in E by lia.
  transitivity (kmul (kmul (sgnf f (mrev a)) (ph e' [- (2 * (Z.of_nat (len a) - 1))])) (kmul (kmul (sgnf f (mrev a)) (ph e' [2 * (Z.of_nat (len a) - 1)])) (u (a, [d])))).
  - transitivity (kmul (kmul (kmul (sgnf f (mrev a)) (sgnf f (mrev a))) (kmul (ph e' [- (2 * (Z.of_nat (len a) - 1))]) (ph e' [2 * (Z.of_nat (len a) - 1)]))) (u (a, [d]))); [|ring].
    rewrite ph'_hom, sgnf_sq, Z.add_opp_diag_l, ph'_one. ring.
  - rewrite E. ring.
Qed.
End Mirror.

Lemma opposite_sym : forall {T} {K : cring} (e e' : env T K), opposite e e' -> opposite e' e.
Proof.
  intros T K e e' [H1 H2 H3 H4 H5 H6 H7]. constructor.
  - intros; symmetry; apply H1.
  - intros d. rewrite H2, Z.opp_involutive. reflexivity.
  - intros; symmetry; apply H3.
  - symmetry; exact H4.
  - intros d l. rewrite !H3. apply H5.
  - rewrite H2. exact H6.
  - intros d d'. rewrite !H2, <- H7. do 2 f_equal. lia.
Qed.

Lemma mirror_result : forall {T} {K : cring} (m : model T) ae ord ord' s s' (e e' : env T K) f sp X v X' v',
  good_model m ae -> opposite e e' -> mirror_symmetric e f m ->
  (forall k l, Permutation (ord k l) l) -> (forall k l, Permutation (ord' k l) l) ->
  prime_system ord m = Ok s -> prime_system ord' m = Ok s' ->
  scaffold e (full_basis s) s = Ok (X, v) -> scaffold e' (full_basis s') s' = Ok (X', v') ->
  nonsingular X -> nonsingular X' /\ (solves X v (sp X v) -> solves X' v' (sp X' v') -> sparse_solve e' sp s' = sparse_solve e sp s).
Proof.
  intros T K m ae ord ord' s s' e e' f sp X v X' v' G O [ops' [P F]] Po Po' Es Es' E E' NS.
  assert (NS' : nonsingular X').
  { apply (same_regular m m ae ae G G ord ord' s s' Po Po' Es Es' e e' X v X' v' E E' NS). intros u' Pu' C'.
    exists (miru e' f u'). split; [apply miru_proper; exact Pu'|]. split; [eapply mirror_conditions; eassumption|]. apply (miru_zero m ae e e' f G O ops' P F). }
  split; [exact NS'|]. intros SV SV'.
  apply (same_result m m ae ae G G ord ord' s s' Po Po' Es Es' e e' sp X v X' v' E E' SV SV' NS').
  intros u Pu C. exists (miru e f u). split; [apply miru_proper; exact Pu|].
  assert (F' : Forall2 (mirror_op e' f) (h_terms (m_ham m)) ops').
  { eapply Forall2_impl; [|exact F]. intros h h' [M1 [M2 [M3 [M4 M5]]]]. repeat (split; [assumption|]). rewrite !(op_ev _ _ O). exact M5. }
  split; [|apply miru_vac]. rewrite (op_G0 _ _ O). eapply mirror_conditions; [exact G|apply opposite_sym; exact O|exact P|exact F'|exact Pu|exact C].
Qed.
