(** Final statements on the equations and the assembled system. *)
From Coq Require Import String ZArith List Bool Lia Permutation.
From Verif Require Import Base NdArray NdArray_proofs Config Spec Spec_ops Config_proofs Modify_proofs Legal_proofs
  Model Space Spec_space Space_proofs Count_proofs Render Render_proofs Term Equation System Spec_engine
  Term_proofs Equation_proofs System_proofs Prime_proofs.
Import ListNotations.
Open Scope list_scope.
Open Scope Z_scope.

(** * The terms of one generalized equation, exactly *)
Section Exact.
Context {T : Type}.
Variable m : model T.
Variable ae : Z.
Hypothesis G : good_model m ae.

Definition sites (a : nd) (h : hterm T) : list (list Z) :=
  match ht_dag h with
  | Minus => map (map Z.of_nat) (filter (fun i => negb (get a (ht_index h :: i) =? 0)) (all_idx (tl (shp a))))
  | Plus => filter (fun x => match creat_at m a h x with Ok (_ :: _) => true | _ => false end) (plus_sites m ae a h)
  end.

Lemma sites_nodup : forall a h, space m ae a -> NoDup (sites a h).
Proof.
  intros a h Sa. destruct (space_unfold m ae a Sa) as [_ [_ [_ [_ [_ [[L [Sh HL]] _]]]]]].
  unfold sites. destruct (ht_dag h).
  - apply NoDup_filter. unfold plus_sites. destruct (_ <? _); [constructor|]. rewrite Sh. cbn [tl].
    apply NoDup_creat_sites.
  - apply NoDup_map_inj; [|apply NoDup_filter, NoDup_all_idx].
    intros i j _ _ E. apply (f_equal (map Z.to_nat)) in E. rewrite !map_to_of in E. exact E.
Qed.

Lemma occ_get : forall a h i, space m ae a -> In h (h_terms (m_ham m)) -> inr (tl (shp a)) i ->
  occ a (ht_index h) (map Z.of_nat i) = get a (ht_index h :: i).
Proof.
  intros a h i Sa Hh Hi. destruct (h_facts m ae G a h Sa Hh) as [V [_ [_ [_ [_ [_ Ht]]]]]].
  destruct (space_unfold m ae a Sa) as [_ [_ [_ [_ [_ [[L [Sh HL]] _]]]]]].
  unfold occ. change (Z.of_nat (ht_index h) :: map Z.of_nat i) with (map Z.of_nat (ht_index h :: i)).
  apply at_of. unfold ntypes in Ht. rewrite Sh in *. constructor; [exact Ht|exact Hi].
Qed.

Lemma In_sites : forall a h x, space m ae a -> In h (h_terms (m_ham m)) ->
  (In x (sites a h) <-> acts_at m ae a h x).
Proof.
  intros a h x Sa Hh. destruct (space_unfold m ae a Sa) as [V [_ [_ [_ [N1 [[L [Sh HL]] _]]]]]].
  unfold sites, acts_at. destruct (ht_dag h) eqn:D.
  - rewrite filter_In. split.
    + intros [Hx E]. pose proof (sites_length m ae a h x Sa Hx) as Lx. split; [exact Lx|].
      destruct (creat_term m ae G a h x Sa Hh Lx) as [t [ok [E' [TF [FL [TB [NF SP]]]]]]].
      rewrite E' in E. destruct ok; [|discriminate]. destruct TF as [s [Vb [M _]]].
      exists (cfg (t_cfg t)), s. split; [exact Vb|]. split; [exact M|]. apply SP. auto.
    + intros [Lx [b [s [Vb [M Sb]]]]].
      destruct (creat_term m ae G a h x Sa Hh Lx) as [t [ok [E' [TF [FL [TB [NF SP]]]]]]].
      destruct TF as [s' [Vb' [M' _]]]. destruct (space_unfold m ae b Sb) as [_ [NFb _]].
      destruct (modified_unique a b _ s s' _ _ _ V Vb Vb' NFb NF M M') as [Eb _].
      rewrite Eb in SP. apply SP in Sb. destruct Sb as [-> Hx]. split; [exact Hx|]. rewrite E'. reflexivity.
  - rewrite in_map_iff. split.
    + intros [i [<- Hi]]. apply filter_In in Hi. destruct Hi as [Hi E]. apply In_all_idx in Hi.
      rewrite map_length, (inr_length _ _ Hi), length_tl_shp. split; [exact N1|].
      rewrite (occ_get a h i Sa Hh Hi). pose proof (valid_nonneg a V) as NN.
      rewrite <- (occ_get a h i Sa Hh Hi) in *. pose proof (proj1 (occ_nonneg a ltac:(rewrite Sh; simpl; lia)) NN (ht_index h) (map Z.of_nat i)). lia.
    + intros [Lx Ho].
      assert (I : inb (shp a) (Z.of_nat (ht_index h) :: x) = true).
      { unfold occ, at_ in Ho. destruct (inb (shp a) _); [reflexivity|lia]. }
      rewrite Sh in I. cbn [inb] in I. destruct x as [|z [|]]; try discriminate.
      cbn [inb] in I. rewrite andb_true_r in I. exists [Z.to_nat z]. cbn [map].
      assert (R : 0 <= z < Z.of_nat L) by lia. rewrite Z2Nat.id by lia. split; [reflexivity|].
      apply filter_In. assert (Hi : inr (tl (shp a)) [Z.to_nat z]) by (rewrite Sh; cbn [tl]; constructor; [lia|constructor]).
      split; [apply In_all_idx; exact Hi|]. rewrite <- (occ_get a h _ Sa Hh Hi). cbn [map]. rewrite Z2Nat.id by lia. lia.
Qed.

Lemma flat_filter : forall {A B} (f : A -> list B) (p : A -> bool) (R : A -> B -> Prop) l,
  (forall x, In x l -> (p x = false /\ f x = []) \/ (p x = true /\ exists y, f x = [y] /\ R x y)) ->
  Forall2 R (filter p l) (flat_map f l).
Proof.
  induction l as [|x r IH]; intros H; simpl; [constructor|].
  destruct (H x (or_introl eq_refl)) as [[E1 E2]|[E1 [y [E2 Ry]]]]; rewrite E1, E2; simpl.
  - apply IH. intros; apply H; simpl; auto.
  - constructor; [exact Ry|]. apply IH. intros; apply H; simpl; auto.
Qed.

Lemma Forall2_map_l : forall {A B C} (f : A -> B) (R : B -> C -> Prop) l l',
  Forall2 (fun x y => R (f x) y) l l' -> Forall2 R (map f l) l'.
Proof. intros. induction H; simpl; constructor; auto. Qed.

Lemma h_rhs_exact : forall a h, space m ae a -> In h (h_terms (m_ham m)) ->
  Forall2 (fun x t => rhs_term m ae a h x t) (sites a h) (h_rhs m ae a h).
Proof.
  intros a h Sa Hh. unfold sites, h_rhs, rhs_term. destruct (ht_dag h) eqn:D.
  - apply flat_filter. intros x Hx. pose proof (sites_length m ae a h x Sa Hx) as Lx.
    destruct (creat_term m ae G a h x Sa Hh Lx) as [t [ok [E' [TF [FL [TB [NF SP]]]]]]]. rewrite E'.
    destruct ok; [right|left; split; reflexivity]. split; [reflexivity|]. exists t. split; [reflexivity|].
    split; [split; [exact TF|]; split; [apply FL|exact TB]|]. right. apply SP. auto.
  - apply Forall2_map_l. apply flat_filter. intros i Hi. apply In_all_idx in Hi.
    pose proof (occ_get a h i Sa Hh Hi) as EO.
    destruct (annih_term m ae G a h i Sa Hh Hi) as [[Z0 E]|[Hn [t [E [TF [FL [TB SP]]]]]]]; rewrite E.
    + left. split; [|reflexivity]. rewrite <- EO, Z0. reflexivity.
    + right. split; [rewrite <- EO; lia|]. exists t. split; [reflexivity|].
      split; [split; [exact TF|]; split; [apply FL|exact TB]|exact SP].
Qed.

Lemma terms_exact : forall a, space m ae a -> exists ts st,
  initialize_terms m a = Ok ts /\
  (forall h, In h (h_terms (m_ham m)) -> NoDup (st h) /\ forall x, In x (st h) <-> acts_at m ae a h x) /\
  Forall2 (fun p t => rhs_term m ae a (fst p) (snd p) t)
          (flat_map (fun h => map (pair h) (st h)) (h_terms (m_ham m))) ts.
Proof.
  intros a Sa. exists (gen_terms m ae a), (sites a). split; [apply (initialize_spec m ae G a Sa)|].
  split; [intros h Hh; split; [apply sites_nodup; exact Sa|intros; apply In_sites; assumption]|].
  unfold gen_terms. assert (H : forall h, In h (h_terms (m_ham m)) -> In h (h_terms (m_ham m))) by auto.
  revert H. generalize (h_terms (m_ham m)) at 1 3 4. intros l. induction l as [|h r IH]; intros H; simpl; [constructor|].
  apply Forall2_app.
  - apply Forall2_map_l. cbn [fst snd]. apply h_rhs_exact; [exact Sa|apply H; simpl; auto].
  - apply IH. intros; apply H; simpl; auto.
Qed.

End Exact.

Lemma NoDup_app_parts : forall {A} (l l' : list A), NoDup (l ++ l') -> NoDup l /\ NoDup l'.
Proof.
  induction l as [|x r IH]; intros l' H; simpl in *; [split; [constructor|exact H]|].
  inversion H as [|? ? Hn H']; subst. destruct (IH l' H') as [A1 A2]. split; [|exact A2].
  constructor; [|exact A1]. intros I. apply Hn. apply in_app_iff. auto.
Qed.

(** * Numbering *)
Lemma sget_sset : forall {A} k k' (v : A) d, sget k (sset k' v d) = if String.eqb k' k then Some v else sget k d.
Proof.
  intros A k k' v d. induction d as [|[k0 v0] r IH]; cbn [sset sget]; [reflexivity|].
  destruct (String.eqb_spec k0 k') as [->|N]; cbn [sget].
  - destruct (String.eqb k' k); reflexivity.
  - fold (@sset A k' v r). rewrite IH. destruct (String.eqb_spec k0 k) as [->|N2]; [|reflexivity].
    destruct (String.eqb_spec k' k) as [->|]; [congruence|reflexivity].
Qed.

Lemma number_acc : forall ids n d, NoDup ids -> forall x i,
  sget x (fold_left (fun d p => sset (snd p) (fst p) d) (combine (seq n (List.length ids)) ids) d) = Some i <->
  (exists j, nth_error ids j = Some x /\ i = (n + j)%nat) \/ (~ In x ids /\ sget x d = Some i).
Proof.
  induction ids as [|y r IH]; intros n d ND x i; cbn [List.length seq combine fold_left].
  - split; [intros H; right; split; [intros []|exact H]|]. intros [[j [H _]]|[_ H]]; [destruct j; discriminate|exact H].
  - inversion ND as [|? ? Hn ND']; subst. rewrite IH by exact ND'. cbn [fst snd]. rewrite sget_sset. split.
    + intros [[j [H ->]]|[Hx H]].
      * left. exists (S j). split; [exact H|lia].
      * destruct (String.eqb_spec y x) as [->|N].
        -- left. exists 0%nat. injection H as <-. split; [reflexivity|lia].
        -- right. split; [intros [E|I]; contradiction|exact H].
    + intros [[[|j] [H ->]]|[Hx H]].
      * injection H as ->. right. split; [exact Hn|]. rewrite String.eqb_refl. f_equal. lia.
      * left. exists j. split; [exact H|lia].
      * right. split; [intros I; apply Hx; right; exact I|]. destruct (String.eqb_spec y x) as [->|N]; [|exact H].
        exfalso. apply Hx. left; reflexivity.
Qed.

Lemma number_ids_spec : forall ids, NoDup ids -> forall x i,
  sget x (number_ids ids) = Some i <-> nth_error ids i = Some x.
Proof.
  intros ids ND x i. unfold number_ids. rewrite number_acc by exact ND. split.
  - intros [[j [H ->]]|[_ H]]; [exact H|discriminate].
  - intros H. left. exists i. auto.
Qed.

(** * The system *)
Section Sys.
Context {T : Type}.
Variable m : model T.
Variable ae : Z.
Hypothesis G : good_model m ae.

Lemma space_ex : exists d, generate_space m = Ok d.
Proof. destruct (generate_space_spec m ae (gm_wf _ _ G) (gm_ae _ _ G)) as [d [E _]]. exists d. exact E. Qed.

Variable ord : string -> list vec -> list vec.
Hypothesis ord_perm : forall k l, Permutation (ord k l) l.

Lemma system_closes : exists s, prime_system ord m = Ok s /\
  NoDup (index_ids (flat_map snd (s_eqs s))) /\
  (forall x, In x (index_ids (flat_map snd (s_eqs s))) <-> In x (rhs_ids (flat_map snd (s_eqs s)))).
Proof.
  destruct space_ex as [d Ed]. eexists. split; [apply (prime_ok m ae G ord ord_perm d Ed)|]. cbn [s_eqs].
  split; [apply (eqs_nodup m ae G ord ord_perm d Ed)|apply (eqs_closed m ae G ord ord_perm d Ed)].
Qed.

Variable s : system T.
Hypothesis Es : prime_system ord m = Ok s.

Lemma s_is : exists d, generate_space m = Ok d /\ s = mkSys m (genl m ae d) (determine_unique ord (masterd m ae d)) (eqsl m ae ord d).
Proof.
  destruct space_ex as [d Ed]. exists d. split; [exact Ed|].
  rewrite (prime_ok m ae G ord ord_perm d Ed) in Es. injection Es as <-. reflexivity.
Qed.

(** Every equation of the system is a cloud of the space or the vacuum, at an
    argument that some term asks for. *)
Lemma s_eq_form : forall k es q, In (k, es) (s_eqs s) -> In q es ->
  exists v, (k = 0 /\ q = full (green m) v \/
    (exists a, space m ae a /\ total a = k /\ q = full (geq m ae a) v)) /\
  exists k' es' q' t, In (k', es') (s_eqs s) /\ In q' es' /\ In t (e_terms q') /\ t_f t = Some v /\
    phonon_config_id (cfg (t_cfg t)) = phonon_config_id (cfg (t_cfg (e_index q))).
Proof.
  destruct s_is as [d [Ed ->]]. cbn [s_eqs]. intros k es q Hk Hq.
  unfold eqsl in Hk. apply in_map_iff in Hk. destruct Hk as [[k0 es0] [E H0]]. injection E as <- <-. cbn [fst snd] in *.
  apply in_flat_map in Hq. destruct Hq as [e [He Hv]]. apply in_map_iff in Hv. destruct Hv as [v [<- Hv]].
  exists v. split.
  - unfold genl in H0. apply in_app_iff in H0. destruct H0 as [H0|[H0|[]]].
    + right. apply in_map_iff in H0. destruct H0 as [[n cs] [E Hn]]. cbn [fst snd] in E. injection E as <- <-.
      apply in_map_iff in He. destruct He as [c [<- Hc]].
      destruct (proj2 (d_spec m ae G d Ed) n cs Hn) as [l [-> [_ C]]]. apply in_map_iff in Hc. destruct Hc as [a [<- Ha]].
      cbn [cfg]. apply C in Ha. destruct (in_space_total m ae n a Ha) as [Sa Ta]. exists a. auto.
    + injection H0 as <- <-. destruct He as [<-|[]]. left. auto.
  - destruct (master_ok m ae G d Ed) as [MG MV].
    destruct (In_needed_src ord ord_perm (genl m ae d) (masterd m ae d) MV _ v Hv) as [e' [t' [He' [Ht' [Ep Ev]]]]].
    pose proof (A_reached m ae G d Ed e' He') as [e2 [t2 [He2 [Ht2 Ep2]]]].
    assert (HN : In (v2 (f_of t2)) (map v2 (needed ord (masterd m ae d) (pid (e_index e'))))).
    { apply (In_needed ord ord_perm (genl m ae d) (masterd m ae d) MV). exists e2, t2. auto. }
    apply in_map_iff in HN. destruct HN as [w [_ Hw]].
    apply in_flat_map in He'. destruct He' as [[k' es'] [Hk' He']]. cbn [snd] in He'.
    exists k', (full_block ord (masterd m ae d) es'), (full e' w), (incr w t').
    split; [apply in_map_iff; exists (k', es'); auto|].
    split; [apply in_flat_map; exists e'; split; [exact He'|apply in_map; exact Hw]|].
    split; [cbn [full e_terms]; apply in_map; exact Ht'|].
    destruct (A_terms m ae G d Ed e' t') as [[f [Ef _]] _]; [apply in_flat_map; exists (k', es'); auto|exact Ht'|].
    unfold f_of in Ev. rewrite Ef in Ev. subst f.
    unfold incr. destruct (t_kind t'), (t_g t'); cbn [t_f t_cfg]; (split; [exact Ef|exact Ep]).
Qed.

Lemma incr_cfg : forall v (t : term T), t_cfg (incr v t) = t_cfg t /\ t_f (incr v t) = t_f t.
Proof. intros v t. unfold incr. destruct (t_kind t), (t_g t); auto. Qed.

Lemma green_terms_total : forall t, In t (green_terms m) -> total (cfg (t_cfg t)) = 1.
Proof. intros t Ht. destruct (green_terms_sound m ae G t Ht) as [h H]. apply H. Qed.

Lemma hierarchy : forall k es q, In (k, es) (s_eqs s) -> In q es ->
  total (cfg (t_cfg (e_index q))) = k /\
  ((0 < k /\ forall t, In t (e_terms q) -> total (cfg (t_cfg t)) = k - 1 \/ total (cfg (t_cfg t)) = k + 1) \/
   (k = 0 /\ forall t, In t (e_terms q) -> total (cfg (t_cfg t)) = 1)).
Proof.
  intros k es q Hk Hq. destruct (s_eq_form k es q Hk Hq) as [v [[[-> ->]|[a [Sa [Ta ->]]]] _]]; cbn [full e_index e_terms with_f t_cfg].
  - split; [apply vac_valid|]. right. split; [reflexivity|]. intros t Ht. apply in_map_iff in Ht.
    destruct Ht as [t0 [<- H0]]. rewrite (proj1 (incr_cfg v t0)). apply green_terms_total. exact H0.
  - split; [exact Ta|]. left. destruct (space_unfold m ae a Sa) as [_ [_ [P _]]]. split; [lia|].
    intros t Ht. apply in_map_iff in Ht. destruct Ht as [t0 [<- H0]]. rewrite (proj1 (incr_cfg v t0)).
    destruct (gen_term_sound m ae G a t0 Sa H0) as [h [x [e [mult [kd [_ [_ [_ [_ [_ [D _]]]]]]]]]]].
    destruct D as [[_ [_ [_ [_ D]]]]|[_ [_ [_ D]]]]; lia.
Qed.

Lemma q_valid : forall k es q, In (k, es) (s_eqs s) -> In q es ->
  valid_cloud (cfg (t_cfg (e_index q))) /\ (exists v, t_f (e_index q) = Some v) /\
  (forall t, In t (e_terms q) -> valid_cloud (cfg (t_cfg t)) /\ exists f, t_f t = Some f /\ List.length (v2 f) = 1%nat).
Proof.
  intros k es q Hk Hq. destruct (s_eq_form k es q Hk Hq) as [v [[[-> ->]|[a [Sa [Ta ->]]]] _]]; cbn [full e_index e_terms with_f t_cfg t_f].
  - split; [apply vac_valid|]. split; [eexists; reflexivity|]. intros t Ht. apply in_map_iff in Ht.
    destruct Ht as [t0 [<- H0]]. rewrite (proj1 (incr_cfg v t0)), (proj2 (incr_cfg v t0)).
    destruct (green_terms_sound m ae G t0 H0) as [h [Hh [_ [EF [_ [_ [Sc _]]]]]]].
    split; [apply (space_unfold m ae _ Sc)|]. exists (ht_phi h). split; [apply EF|apply (gm_phi _ _ G); exact Hh].
  - split; [apply (space_unfold m ae a Sa)|]. split; [eexists; reflexivity|]. intros t Ht. apply in_map_iff in Ht.
    destruct Ht as [t0 [<- H0]]. rewrite (proj1 (incr_cfg v t0)), (proj2 (incr_cfg v t0)).
    destruct (gen_terms_f m ae G a t0 Sa H0) as [F _]. split; [|exact F].
    destruct (gen_term_sound m ae G a t0 Sa H0) as [h [x [e [mult [kd [_ [_ [TF _]]]]]]]]. destruct TF as [s0 [Vb _]]. exact Vb.
Qed.

(** Phonon-free terms have argument zero. *)
Lemma vacuum_terms : forall k es q t, In (k, es) (s_eqs s) -> In q es -> In t (e_terms q) ->
  phonon_free (cfg (t_cfg t)) -> exists f, t_f t = Some f /\ v2 f = [0].
Proof.
  intros k es q t Hk Hq Ht F. destruct (s_eq_form k es q Hk Hq) as [v [[[-> ->]|[a [Sa [Ta ->]]]] _]]; cbn [full e_terms] in Ht;
    apply in_map_iff in Ht; destruct Ht as [t0 [<- H0]]; rewrite (proj1 (incr_cfg v t0)) in F; rewrite (proj2 (incr_cfg v t0)).
  - exfalso. destruct (green_terms_sound m ae G t0 H0) as [h [_ [_ [_ [_ [_ [Sc _]]]]]]].
    destruct (space_unfold m ae _ Sc) as [_ [NF _]]. contradiction.
  - destruct (gen_term_sound m ae G a t0 Sa H0) as [h [x [e [mult [kd [_ [_ [TF _]]]]]]]].
    destruct (space_unfold m ae a Sa) as [_ [_ [_ [_ [N1 _]]]]].
    destruct TF as [s0 [_ [_ [_ [_ [_ [f [Ef [[NF _]|[_ [E0 _]]]]]]]]]]]; [contradiction|]. exists f. rewrite N1 in E0. auto.
Qed.

Lemma green_block : exists q, In (0, [q]) (s_eqs s) /\ e_green q = true /\
  phonon_free (cfg (t_cfg (e_index q))) /\ (exists f, t_f (e_index q) = Some f /\ v2 f = [0]) /\
  exists l, s_eqs s = l ++ [(0, [q])] /\ Forall (fun kv => 0 < fst kv) l /\ NoDup (map fst l).
Proof.
  destruct s_is as [d [Ed E]].
  assert (B : exists vs, s_eqs s = map (fun kv => (fst kv, full_block ord (masterd m ae d) (snd kv)))
      (map (fun kv => (fst kv, map (fun c => geq m ae (cfg c)) (snd kv))) d) ++ [(0, map (full (green m)) vs)] /\
      NoDup (map v2 vs) /\ vs <> [] /\ forall v, In v vs -> v2 v = [0]).
  { rewrite E. cbn [s_eqs]. unfold eqsl, genl. rewrite map_app. cbn [map fst snd full_block flat_map]. rewrite app_nil_r.
    exists (needed ord (masterd m ae d) (pid (e_index (green m)))). split; [reflexivity|].
    split; [apply (needed_nodup ord ord_perm)|]. destruct (master_ok m ae G d Ed) as [MG MV]. split.
    - destruct (A_reached m ae G d Ed (green m)) as [e [t [He [Ht Ep]]]]; [apply (In_allg m ae G d Ed); left; reflexivity|].
      assert (HN : In (v2 (f_of t)) (map v2 (needed ord (masterd m ae d) (pid (e_index (green m)))))).
      { apply (In_needed ord ord_perm (genl m ae d) (masterd m ae d) MV). exists e, t. auto. }
      intros N. rewrite N in HN. destruct HN.
    - intros v Hv. destruct (In_needed_src ord ord_perm (genl m ae d) (masterd m ae d) MV _ v Hv) as [e [t [He [Ht [Ep Ev]]]]].
      assert (F : phonon_config_id (cfg (t_cfg t)) = "{G}"%string).
      { change (pid t = "{G}"%string). rewrite Ep. unfold pid. cbn. apply green_id. apply vac_valid. }
      apply green_id in F. apply (In_allg m ae G d Ed) in He. destruct He as [->|[a [Sa ->]]]; cbn [e_terms green geq] in Ht.
      + apply green_terms_total in Ht. lia.
      + destruct (gen_term_sound m ae G a t Sa Ht) as [h [x [e [mult [kd [_ [_ [TF _]]]]]]]].
        destruct (space_unfold m ae a Sa) as [_ [_ [_ [_ [N1 _]]]]].
        destruct TF as [s0 [Vb [_ [_ [_ [_ [f [Ef [[NF _]|[_ [E0 _]]]]]]]]]]]; [exfalso; apply NF, valid_total_free; assumption|].
        unfold f_of in Ev. rewrite Ef in Ev. subst f. rewrite N1 in E0. exact E0. }
  destruct B as [vs [Es' [ND [NE Z0]]]].
  destruct vs as [|v [|v' r]]; [congruence| |exfalso].
  - exists (full (green m) v). rewrite Es'. split; [apply in_app_iff; right; left; reflexivity|].
    split; [reflexivity|]. split; [apply valid_total_free; apply vac_valid|].
    split; [exists v; split; [reflexivity|apply Z0; simpl; auto]|].
    eexists. split; [reflexivity|]. rewrite !map_map. cbn [fst]. destruct (d_spec m ae G d Ed) as [K _]. split.
    + apply Forall_forall. intros [k es] H. apply in_map_iff in H. destruct H as [kv0 [E0 H]]. injection E0 as <- <-.
      cbn [fst]. apply (in_map fst) in H. rewrite K in H. apply In_range in H. lia.
    + change (NoDup (map fst d)). rewrite K. apply NoDup_range.
  - simpl in ND. inversion ND as [|? ? Hn _]. apply Hn. left. rewrite (Z0 v), (Z0 v'); simpl; auto.
Qed.

(** The unknown of a term, independent of strings. *)
Lemma same_unknown_id : forall t t' : term T, valid_cloud (cfg (t_cfg t)) -> valid_cloud (cfg (t_cfg t')) ->
  (tid t = tid t' <-> same_unknown t t').
Proof. intros t t' V V'. unfold tid, same_unknown. apply term_id_spec; assumption. Qed.

Lemma In_blocks : forall q, In q (flat_map snd (s_eqs s)) <-> exists k es, In (k, es) (s_eqs s) /\ In q es.
Proof.
  intros q. rewrite in_flat_map. split.
  - intros [[k es] [H1 H2]]. exists k, es. auto.
  - intros [k [es [H1 H2]]]. exists (k, es). auto.
Qed.

Lemma s_ids : NoDup (index_ids (flat_map snd (s_eqs s))) /\
  (forall x, In x (index_ids (flat_map snd (s_eqs s))) <-> In x (rhs_ids (flat_map snd (s_eqs s)))).
Proof. destruct system_closes as [s' [E H]]. rewrite Es in E. injection E as <-. exact H. Qed.

Lemma closes : 
  (forall q t, In q (flat_map snd (s_eqs s)) -> In t (e_terms q) ->
     exists q', In q' (flat_map snd (s_eqs s)) /\ same_unknown t (e_index q')) /\
  (forall q, In q (flat_map snd (s_eqs s)) ->
     exists q' t, In q' (flat_map snd (s_eqs s)) /\ In t (e_terms q') /\ same_unknown t (e_index q)).
Proof.
  destruct s_ids as [_ C]. split.
  - intros q t Hq Ht.
    assert (I : In (tid t) (rhs_ids (flat_map snd (s_eqs s)))).
    { unfold rhs_ids. apply in_flat_map. exists q. split; [exact Hq|apply in_map; exact Ht]. }
    apply C in I. unfold index_ids in I. apply in_map_iff in I. destruct I as [q' [E Hq']].
    exists q'. split; [exact Hq'|]. apply In_blocks in Hq, Hq'. destruct Hq as [k [es [H1 H2]]]. destruct Hq' as [k' [es' [H1' H2']]].
    apply same_unknown_id; [| |symmetry; exact E].
    + apply (q_valid k es q H1 H2). exact Ht.
    + exact (proj1 (q_valid k' es' q' H1' H2')).
  - intros q Hq.
    assert (I : In (tid (e_index q)) (index_ids (flat_map snd (s_eqs s)))) by (apply in_map_iff; exists q; auto).
    apply C in I. unfold rhs_ids in I. apply in_flat_map in I. destruct I as [q' [Hq' I]].
    apply in_map_iff in I. destruct I as [t [E Ht]]. exists q', t. split; [exact Hq'|]. split; [exact Ht|].
    apply In_blocks in Hq, Hq'. destruct Hq as [k [es [H1 H2]]]. destruct Hq' as [k' [es' [H1' H2']]].
    apply same_unknown_id; [apply (q_valid k' es' q' H1' H2'); exact Ht|exact (proj1 (q_valid k es q H1 H2))|auto].
Qed.

(** Counting. *)
Lemma sum_blocks : forall {A} (l : list (Z * list A)),
  sumZ (map (fun kv => Z.of_nat (List.length (snd kv))) l) = Z.of_nat (List.length (flat_map snd l)).
Proof. intros A l. induction l as [|kv r IH]; [reflexivity|]. cbn [map flat_map]. rewrite app_length.
  change (Z.of_nat (List.length (snd kv)) + sumZ (map (fun kv => Z.of_nat (List.length (snd kv))) r) =
    Z.of_nat (List.length (snd kv) + List.length (flat_map snd r))). lia. Qed.

Lemma sumZ_perm : forall l l', Permutation l l' -> sumZ l = sumZ l'.
Proof. induction 1; cbn [sumZ fold_right] in *; unfold sumZ in *; cbn [fold_right]; lia. Qed.

Lemma count_ok : total_terms s = sumZ (map (fun kv => Z.of_nat (List.length (snd kv))) (s_eqs s)).
Proof.
  rewrite sum_blocks. destruct s_is as [d [Ed ->]]. cbn [s_eqs]. unfold total_terms. cbn [s_fargs].
  destruct (master_ok m ae G d Ed) as [MG MV].
  change (flat_map snd (eqsl m ae ord d)) with (alleqs ord (genl m ae d) (masterd m ae d)).
  rewrite (alleqs_flat ord (genl m ae d) (masterd m ae d)).
  set (f := fun k => Z.of_nat (List.length (needed ord (masterd m ae d) k))).
  assert (L : sumZ (map (fun kv : string * list vec => Z.of_nat (List.length (snd kv))) (determine_unique ord (masterd m ae d)))
    = sumZ (map f (map fst (masterd m ae d)))).
  { unfold determine_unique. rewrite !map_map. cbn [snd]. f_equal. apply map_ext_in. intros [k l] H. cbn [fst snd].
    unfold f, needed. destruct MG as [ND _]. f_equal. f_equal. f_equal. f_equal. symmetry. unfold val.
    revert H ND. clear. generalize (masterd m ae d). intros D. induction D as [|[k' l'] r IH]; intros H ND; [destruct H|].
    simpl in ND. inversion ND as [|? ? Hn ND']; subst. simpl. destruct H as [E|H].
    - injection E as -> ->. rewrite String.eqb_refl. reflexivity.
    - destruct (String.eqb_spec k' k) as [->|NE]; [|apply IH; assumption]. exfalso. apply Hn. apply (in_map fst) in H. exact H. }
  rewrite L.
  assert (R : Z.of_nat (List.length (full_block ord (masterd m ae d) (flat_map snd (genl m ae d)))) =
    sumZ (map f (map (fun e => pid (e_index e)) (flat_map snd (genl m ae d))))).
  { clear. induction (flat_map snd (genl m ae d)) as [|e r IH]; [reflexivity|]. unfold full_block in *. cbn [flat_map map].
    rewrite app_length, map_length.
    change (Z.of_nat (List.length (needed ord (masterd m ae d) (pid (e_index e))) + List.length (flat_map (fun e0 : equation T => map (full e0) (needed ord (masterd m ae d) (pid (e_index e0)))) r))
      = f (pid (e_index e)) + sumZ (map f (map (fun e0 => pid (e_index e0)) r))). unfold f at 1. lia. }
  rewrite R. apply sumZ_perm, Permutation_map. apply NoDup_Permutation.
  - apply MG.
  - apply (gen_pids_nodup m ae G d Ed).
  - intros k. split.
    + intros H. assert (V : val k (masterd m ae d) <> []).
      { unfold val. destruct MG as [ND NE]. revert H ND NE. generalize (masterd m ae d). clear. intros D.
        induction D as [|[k' l'] r IH]; intros H ND NE; [destruct H|]. simpl in *. inversion ND as [|? ? Hn ND']; subst.
        destruct (String.eqb_spec k' k) as [->|N].
        - inversion NE; subst. assumption.
        - destruct H as [E|H]; [contradiction|]. apply IH; auto. inversion NE; assumption. }
      rewrite MV in V. destruct (flat_map (fun e : equation T => fs_of k (e_terms e)) (flat_map snd (genl m ae d))) as [|v0 l0] eqn:E; [congruence|].
      assert (I : In v0 (flat_map (fun e : equation T => fs_of k (e_terms e)) (flat_map snd (genl m ae d)))) by (rewrite E; left; reflexivity).
      apply in_flat_map in I. destruct I as [e [He Hv]]. unfold fs_of in Hv. apply in_map_iff in Hv. destruct Hv as [t [_ Ht]].
      apply filter_In in Ht. destruct Ht as [Ht Ek]. apply String.eqb_eq in Ek.
      destruct (A_closed m ae G d Ed e t He Ht) as [e' [He' Ep]]. apply in_map_iff. exists e'. split; [congruence|exact He'].
    + intros H. apply in_map_iff in H. destruct H as [e [<- He]]. destruct (A_reached m ae G d Ed e He) as [e' [t [He' [Ht Ep]]]].
      assert (I : In (f_of t) (val (pid (e_index e)) (masterd m ae d))).
      { rewrite MV. apply in_flat_map. exists e'. split; [exact He'|]. unfold fs_of. apply in_map, filter_In. split; [exact Ht|].
        apply String.eqb_eq. exact Ep. }
      revert I. unfold val. generalize (masterd m ae d). clear. intros D I.
      induction D as [|[k' l'] r IH]; [destruct I|]. simpl in I. simpl.
      destruct (String.eqb_spec k' (pid (e_index e))) as [->|N]; auto.
Qed.

(** The basis. *)
Lemma full_basis_spec : let ids := index_ids (flat_map snd (s_eqs s)) in
  (forall x i, sget x (full_basis s) = Some i <-> nth_error ids i = Some x).
Proof. intros ids. unfold full_basis. apply number_ids_spec. apply s_ids. Qed.

Lemma green_last : sget "{G}[0.0]"%string (full_basis s) = Some (List.length (flat_map snd (s_eqs s)) - 1)%nat.
Proof.
  apply full_basis_spec. destruct green_block as [q [Hq [_ [F [[f [Ef Zf]] [l [El _]]]]]]].
  rewrite El. rewrite flat_map_app. cbn [flat_map snd app]. unfold index_ids. rewrite map_app, app_length. cbn [map List.length].
  rewrite nth_error_app2 by (rewrite map_length; lia). rewrite map_length.
  replace (_ + 1 - 1 - _)%nat with 0%nat by lia. cbn [nth_error]. f_equal.
  unfold tid, term_id. rewrite Ef. unfold f_arg_id. rewrite Zf.
  destruct (q_valid 0 [q] q Hq (or_introl eq_refl)) as [V _].
  rewrite (proj2 (green_id (cfg (t_cfg (e_index q)))) (proj2 (valid_total_free _ V) F)). reflexivity.
Qed.

Lemma local_spec : forall k es, In (k, es) (s_eqs s) ->
  assocZ k (local_basis s) = Some (number_ids (index_ids es)) /\
  NoDup (index_ids es) /\
  forall x i, sget x (number_ids (index_ids es)) = Some i <-> nth_error (index_ids es) i = Some x.
Proof.
  intros k es H.
  assert (ND : NoDup (index_ids es)).
  { pose proof (proj1 s_ids) as N. unfold index_ids in *. revert H N. generalize (s_eqs s). clear. intros L.
    induction L as [|kv r IH]; intros H N; [destruct H|]. cbn [flat_map] in N. rewrite map_app in N.
    destruct H as [->|H]; [apply NoDup_app_parts in N; apply N|apply NoDup_app_parts in N; apply IH; [assumption|apply N]]. }
  split; [|split; [exact ND|apply number_ids_spec; exact ND]].
  unfold local_basis. destruct green_block as [q [_ [_ [_ [_ [l [El [P N]]]]]]]].
  assert (NK : NoDup (map fst (s_eqs s))).
  { rewrite El, map_app. apply NoDup_app; [exact N|repeat constructor; intros []|].
    intros x H1 H2. destruct H2 as [<-|[]]. cbn [fst] in H1. apply in_map_iff in H1. destruct H1 as [kv [E H1]].
    rewrite Forall_forall in P. apply P in H1. lia. }
  apply assocZ_In.
  - rewrite map_map. cbn [fst]. exact NK.
  - apply in_map_iff. exists (k, es). auto.
Qed.

End Sys.
