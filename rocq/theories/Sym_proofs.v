(** Symmetries of the Green's function (C42, C47). *)
From Coq Require Import String ZArith List Bool Lia Permutation Ring.
From Verif Require Import Base NdArray NdArray_proofs Config Spec Spec_ops Config_proofs Modify_proofs Legal_proofs
  Model HModel Space Spec_space Space_proofs Count_proofs Render Render_proofs Term Equation System Spec_engine
  Term_proofs Equation_proofs System_proofs Prime_proofs Engine_proofs Order_proofs Ring Coef Spec_eom Eom_proofs
  Solvers Spec_solve Sysok_proofs Sparse_proofs Spec_model Spec_sym Rows_proofs.
Import ListNotations.
Open Scope list_scope.
Open Scope Z_scope.

(** * Comparing the results of two systems *)
Section Compare.
Context {T : Type} {K : cring}.
Add Ring KRcmp : (klaws K).
Variables (m m' : model T) (ae ae' : Z).
Hypotheses (G : good_model m ae) (G' : good_model m' ae').
Variables (ord ord' : string -> list vec -> list vec) (s s' : system T).
Hypotheses (P : forall k l, Permutation (ord k l) l) (P' : forall k l, Permutation (ord' k l) l).
Hypotheses (Es : prime_system ord m = Ok s) (Es' : prime_system ord' m' = Ok s').
Variables (e e' : env T K).

Lemma same_result : forall sp X v X' v',
  scaffold e (full_basis s) s = Ok (X, v) -> scaffold e' (full_basis s') s' = Ok (X', v') ->
  solves X v (sp X v) -> solves X' v' (sp X' v') -> nonsingular X' ->
  (forall u, proper u -> conditions m ae e u (G0 e) -> exists u', proper u' /\ conditions m' ae' e' u' (G0 e') /\ u' (vac m', [0]) = u (vac m, [0])) ->
  sparse_solve e' sp s' = sparse_solve e sp s.
Proof.
  intros sp X v X' v' E E' SV SV' NS H.
  destruct (sys_ok_good m ae ord s G P Es) as [O _]. destruct (sys_ok_good m' ae' ord' s' G' P' Es') as [O' _].
  destruct (sparse_result e s O sp X v E SV) as [g [Eg [[u [Pu [Su Gu]]] _]]].
  destruct (sparse_result e' s' O' sp X' v' E' SV') as [g' [Eg' [_ U']]].
  rewrite Eg, Eg'. f_equal.
  destruct (H u Pu (proj1 (solution_iff m ae G ord P s Es e u Pu) Su)) as [u' [Pu' [Cu' Ev]]].
  pose proof (U' NS u' Pu' (proj2 (solution_iff m' ae' G' ord' P' s' Es' e' u' Pu') Cu')) as Gu'.
  rewrite (g_value_unique s' O' u' g' (u' (vac m', [0])) Gu' (g_value_vac m' ae' G' ord' P' s' Es' u')).
  rewrite (g_value_unique s O u g (u (vac m, [0])) Gu (g_value_vac m ae G ord P s Es u)). exact Ev.
Qed.

Lemma same_regular : forall X v X' v',
  scaffold e (full_basis s) s = Ok (X, v) -> scaffold e' (full_basis s') s' = Ok (X', v') -> nonsingular X ->
  (forall u', proper u' -> conditions m' ae' e' u' k0 -> exists u, proper u /\ conditions m ae e u k0 /\
     ((u (vac m, [0]) = k0 /\ forall a d, space m ae a -> reached m ae a d -> u (a, [d]) = k0) ->
      u' (vac m', [0]) = k0 /\ forall a d, space m' ae' a -> reached m' ae' a d -> u' (a, [d]) = k0)) ->
  nonsingular X'.
Proof.
  intros X v X' v' E E' NS H.
  destruct (sys_ok_good m ae ord s G P Es) as [O _]. destruct (sys_ok_good m' ae' ord' s' G' P' Es') as [O' _].
  rewrite (scaffold_ok e s O) in E. rewrite (scaffold_ok e' s' O') in E'.
  assert (X = mkCoo (NN s) (NN s) (triplets e s)) as -> by congruence. assert (X' = mkCoo (NN s') (NN s') (triplets e' s')) as -> by congruence.
  apply (regular_iff m' ae' G' ord' P' s' Es' e'). intros u' Pu' C'. destruct (H u' Pu' C') as [u [Pu [C Z]]]. apply Z.
  apply (proj1 (regular_iff m ae G ord P s Es e) NS u Pu C).
Qed.
End Compare.

(** * Signs of phonon states *)
Definition count (f : nat -> bool) (a : nd) : Z := sumZ (map (fun t => if f t then total_type a t else 0) (seq 0 (ntypes a))).
Definition sgnf {K : cring} (f : nat -> bool) (a : nd) : K := if Z.even (count f a) then k1 else kopp k1.

Lemma count_free : forall f a, valid_cloud a -> phonon_free a -> count f a = 0.
Proof.
  intros f a V F. unfold count. assert (H : forall l, (forall t, In t l -> (t < ntypes a)%nat) -> sumZ (map (fun t => if f t then total_type a t else 0) l) = 0).
  { induction l as [|t r IH]; intros H; [reflexivity|]. cbn [map]. change (sumZ (?x :: ?y)) with (x + sumZ y). rewrite IH by (intros; apply H; simpl; auto).
    destruct (f t); [|lia]. assert (E : total_type a t = 0); [|lia].
    unfold total_type. assert (Hi : forall i, In i (all_idx (tl (shp a))) -> get a (t :: i) = 0).
    { intros i Hi. apply In_all_idx in Hi. specialize (F t (map Z.of_nat i)). unfold occ in F.
      change (Z.of_nat t :: map Z.of_nat i) with (map Z.of_nat (t :: i)) in F. rewrite at_of in F; [exact F|].
      pose proof (valid_rank a V) as R. specialize (H t (or_introl eq_refl)). unfold ntypes in H. destruct (shp a) as [|n sh]; [simpl in R; lia|]. constructor; assumption. }
    revert Hi. generalize (all_idx (tl (shp a))). induction l as [|i l' IH']; intros Hi; [reflexivity|]. cbn [map]. change (sumZ (?x :: ?y)) with (x + sumZ y).
    rewrite (Hi i (or_introl eq_refl)), IH'; [reflexivity|]. intros; apply Hi; simpl; auto. }
  apply H. intros t Ht. apply in_seq in Ht. lia.
Qed.

Lemma sum_one : forall (g g' : nat -> Z) t e n k, (forall t', (k <= t' < k + n)%nat -> g' t' = g t' + if Nat.eqb t' t then e else 0) -> (k <= t < k + n)%nat ->
  sumZ (map g' (seq k n)) = sumZ (map g (seq k n)) + e.
Proof.
  intros g g' t e n. induction n as [|n IH]; intros k H Ht; [lia|]. cbn [seq map]. change (sumZ (?x :: ?y)) with (x + sumZ y).
  rewrite (H k) by lia. destruct (Nat.eqb_spec k t) as [->|N].
  - assert (E : map g' (seq (S t) n) = map g (seq (S t) n)).
    { apply map_ext_in. intros t' Ht'. apply in_seq in Ht'. rewrite (H t') by lia. destruct (Nat.eqb_spec t' t); lia. }
    change (sumZ (?x :: ?y)) with (x + sumZ y). rewrite E. lia.
  - change (sumZ (?x :: ?y)) with (x + sumZ y). rewrite (IH (S k)); [lia| |lia]. intros t' Ht'. apply H. lia.
Qed.

Lemma count_modified : forall f a b s t x e, valid_cloud a -> valid_cloud b -> modified_by a b s t x e -> List.length x = ndim a -> (t < ntypes a)%nat ->
  count f b = count f a + if f t then e else 0.
Proof.
  intros f a b s t x e Va Vb M Lx Ht. pose proof M as [_ [NT _]]. unfold count. rewrite NT. apply (sum_one _ _ t).
  - intros t' Ht'. rewrite (modified_total_type a b s t x e t'); try assumption; try (apply valid_wf; assumption); [|pose proof (valid_rank a Va); lia|lia].
    destruct (Nat.eqb_spec t' t) as [E|]; [subst t'|]; destruct (f t); try destruct (f t'); lia.
  - lia.
Qed.

Section SignK.
Context {K : cring}.
Add Ring KRsg : (klaws K).
Lemma sgnf_sq : forall f a, kmul (sgnf f a) (sgnf f a) = (k1 : K).
Proof. intros f a. unfold sgnf. destruct (Z.even _); ring. Qed.

Lemma sgnf_modified : forall f a b s t x e, valid_cloud a -> valid_cloud b -> modified_by a b s t x e -> List.length x = ndim a -> (t < ntypes a)%nat ->
  e = 1 \/ e = -1 -> sgnf f b = kmul (if f t then kopp k1 else (k1 : K)) (sgnf f a).
Proof.
  intros f a b s t x e Va Vb M Lx Ht He. unfold sgnf. rewrite (count_modified f a b s t x e Va Vb M Lx Ht).
  destruct (f t).
  - rewrite Z.even_add. destruct He as [->| ->]; cbn [Z.even]; destruct (Z.even (count f a)); simpl; ring.
  - rewrite Z.add_0_r. destruct (Z.even (count f a)); ring.
Qed.

Lemma sgnf_free : forall f a, valid_cloud a -> phonon_free a -> sgnf f a = (k1 : K).
Proof. intros f a V F. unfold sgnf. rewrite (count_free f a V F). reflexivity. Qed.
End SignK.

(** * C42: signs of couplings *)
Section Flip.
Context {T : Type} {K : cring}.
Add Ring KRfl : (klaws K).
Variables (m m' : model T) (ae : Z) (e : env T K) (f : nat -> bool).
Hypothesis G : good_model m ae.
Hypothesis Fl : flipped e f m m'.
Let ops := h_terms (m_ham m).
Let ops' := h_terms (m_ham m').
Let sc (h : hterm T) : K := if f (ht_index h) then kopp k1 else k1.

Lemma flip_ops : Forall2 (fun h h' => scaled_op e (sc h) h h') ops ops'. Proof. apply Fl. Qed.

Lemma Forall2_ex_r : forall {A B} (R : A -> B -> Prop) l l', Forall2 R l l' -> forall y, In y l' -> exists x, In x l /\ R x y.
Proof. intros A B R l l' H. induction H; intros z Hz; [destruct Hz|]. destruct Hz as [<-|Hz]; [exists x; simpl; auto|]. destruct (IHForall2 z Hz) as [w [? ?]]. exists w. simpl. auto. Qed.
Lemma Forall2_ex_l : forall {A B} (R : A -> B -> Prop) l l', Forall2 R l l' -> forall x, In x l -> exists y, In y l' /\ R x y.
Proof. intros A B R l l' H. induction H; intros z Hz; [destruct Hz|]. destruct Hz as [<-|Hz]; [exists y; simpl; auto|]. destruct (IHForall2 z Hz) as [w [? ?]]. exists w. simpl. auto. Qed.

Lemma Forall2_filter : forall {A B} (R : A -> B -> Prop) (p : A -> bool) (q : B -> bool) l l', (forall x y, R x y -> p x = q y) ->
  Forall2 R l l' -> Forall2 R (filter p l) (filter q l').
Proof. intros A B R p q l l' H F. induction F as [|x y l l' Rxy F IH]; [constructor|]. cbn [filter]. rewrite (H x y Rxy). destruct (q y); [constructor; assumption|exact IH]. Qed.

Lemma flip_space : forall a, space m' ae a <-> space m ae a.
Proof. intros a. destruct Fl as [SF _]. unfold space, model_space. rewrite (sf_ntypes _ _ SF), (sf_mps _ _ SF), (sf_pe _ _ SF), (sf_pn _ _ SF). reflexivity. Qed.

Lemma flip_acts : forall c a h h' x, scaled_op e c h h' -> (acts_at m' ae a h' x <-> acts_at m ae a h x).
Proof.
  intros c a h h' x [_ [_ [D [I _]]]]. unfold acts_at. rewrite D, I. destruct (ht_dag h); [|reflexivity].
  split; intros [L [b [s [V [M S]]]]]; (split; [exact L|]); exists b, s; repeat (split; [assumption|]); apply flip_space; exact S.
Qed.

Lemma flip_good : good_model m' ae.
Proof.
  destruct Fl as [SF F2]. destruct G as [W A A1 MP PE PN FR IX PH PS PL MI DT]. constructor.
  - unfold wf_model in *. rewrite (sf_ntypes _ _ SF), (sf_dim _ _ SF), (sf_pe _ _ SF), (sf_pn _ _ SF). exact W.
  - rewrite (sf_ae _ _ SF). exact A.
  - exact A1.
  - rewrite (sf_mps _ _ SF). exact MP.
  - rewrite (sf_ntypes _ _ SF), (sf_pe _ _ SF). exact PE.
  - rewrite (sf_ntypes _ _ SF), (sf_pn _ _ SF). exact PN.
  - rewrite (sf_ntypes _ _ SF), (sf_freqs _ _ SF). exact FR.
  - intros h' H'. destruct (Forall2_ex_r _ _ _ F2 h' H') as [h [Hh [_ [_ [_ [I _]]]]]]. rewrite I, (sf_ntypes _ _ SF). apply IX; exact Hh.
  - intros h' H'. destruct (Forall2_ex_r _ _ _ F2 h' H') as [h [Hh [_ [I _]]]]. rewrite I. apply PH; exact Hh.
  - intros h' H'. destruct (Forall2_ex_r _ _ _ F2 h' H') as [h [Hh [I _]]]. rewrite I. apply PS; exact Hh.
  - rewrite (sf_ntypes _ _ SF). intros t Ht. destruct (PL t Ht) as [h [Hh [E1 E2]]]. destruct (Forall2_ex_l _ _ _ F2 h Hh) as [h' [H' [_ [_ [D [I _]]]]]].
    exists h'. split; [exact H'|]. split; congruence.
  - destruct MI as [h [Hh E2]]. destruct (Forall2_ex_l _ _ _ F2 h Hh) as [h' [H' [_ [_ [D [I _]]]]]]. exists h'. split; [exact H'|congruence].
  - intros h1' h2' H1' H2'. destruct (Forall2_ex_r _ _ _ F2 h1' H1') as [h1 [H1 [A11 [A12 _]]]]. destruct (Forall2_ex_r _ _ _ F2 h2' H2') as [h2 [H2 [_ [A22 _]]]].
    rewrite A11, A12, A22. apply DT; assumption.
Qed.

Lemma flip_reached : forall a d, reached m' ae a d <-> reached m ae a d.
Proof.
  destruct Fl as [SF F2]. intros a d. unfold reached. rewrite (sf_ntypes _ _ SF). split.
  - intros [[h' [H' [D' [Ea Ed]]]]|[b [h' [x [s [Sb [H' [A [M Ed]]]]]]]]]; destruct (Forall2_ex_r _ _ _ F2 h' H') as [h [Hh SC]]; pose proof SC as [E1 [E2 [E3 [E4 _]]]].
    + left. exists h. unfold phi1 in *. rewrite <- E2, <- E3, <- E4. auto.
    + right. exists b, h, x, s. unfold phi1, sgn in *. rewrite <- E2, <- E4, <- E3. split; [apply flip_space; exact Sb|]. split; [exact Hh|].
      split; [apply (flip_acts _ _ _ _ _ SC); exact A|]. auto.
  - intros [[h [Hh [D [Ea Ed]]]]|[b [h [x [s [Sb [Hh [A [M Ed]]]]]]]]]; destruct (Forall2_ex_l _ _ _ F2 h Hh) as [h' [H' SC]]; pose proof SC as [E1 [E2 [E3 [E4 _]]]].
    + left. exists h'. unfold phi1 in *. rewrite E2, E3, E4. auto.
    + right. exists b, h', x, s. unfold phi1, sgn in *. rewrite E2, E4, E3. split; [apply flip_space; exact Sb|]. split; [exact H'|].
      split; [apply (flip_acts _ _ _ _ _ SC); exact A|]. auto.
Qed.

Definition flipu (u : nd * list Z -> K) (p : nd * list Z) : K := kmul (sgnf f (fst p)) (u p).

Lemma flipu_proper : forall u, proper u -> proper (flipu u).
Proof.
  intros u Pu a a' d V V' F0 F0'. unfold flipu. cbn [fst]. rewrite (sgnf_free f a V F0), (sgnf_free f a' V' F0'), (Pu a a' d V V' F0 F0'). reflexivity.
Qed.

Lemma flip_summand : forall u a h h' x l d, space m ae a -> In h ops -> acts_at m ae a h [x] -> scaled_op e (sc h) h h' ->
  summand e (flipu u) l a d h' x = kmul (sgnf f a) (summand e u l a d h x).
Proof.
  intros u a h h' x l d Sa Hh A [E1 [E2 [E3 [E4 E5]]]].
  destruct (next_spec m ae G a h x Sa Hh A) as [Vn [M [Tn _]]]. destruct (space_unfold m ae a Sa) as [Va [_ [_ [NT [N1 _]]]]].
  assert (EN : next a h' x = next a h x) by (unfold next; rewrite E3, E4; reflexivity).
  assert (SG : sgnf f (fst (next a h x)) = kmul (sc h) (sgnf f a)).
  { eapply sgnf_modified; [exact Va|exact Vn|exact M|rewrite N1; reflexivity|rewrite NT; apply (gm_index _ _ G h Hh)|]. unfold sgn. destruct (ht_dag h); auto. }
  assert (J : jump e (flipu u) (next a h' x) (phi1 h' - 2 * x) = kmul (kmul (sc h) (sgnf f a)) (jump e u (next a h x) (phi1 h - 2 * x))).
  { rewrite EN. unfold jump, flipu, phi1. rewrite E2. cbn [fst]. rewrite SG. destruct (_ =? 0); ring. }
  unfold summand. rewrite J, E5. unfold multi, psi1, phi1. rewrite E1, E2, E3, E4.
  assert (SQ : kmul (sc h) (sc h) = k1) by (unfold sc; destruct (f _); ring).
  transitivity (kmul (kmul (sc h) (sc h)) (kmul (sgnf f a) (kmul (kmul (kmul (ev e (ht_coupling h)) (kz match ht_dag h with | Plus => 1 | Minus => occ a (ht_index h) [x] end))
     (g0 e [hd 0 (v2 (ht_psi h)) - hd 0 (v2 (ht_phi h)) + 2 * x + d] l)) (jump e u (next a h x) (hd 0 (v2 (ht_phi h)) - 2 * x))))); [ring|rewrite SQ; ring].
Qed.

Lemma st_perm : forall (m1 m2 : model T) ae1 ae2 a h h', good_model m1 ae1 -> good_model m2 ae2 -> space m1 ae1 a -> space m2 ae2 a -> In h (h_terms (m_ham m1)) -> In h' (h_terms (m_ham m2)) ->
  (forall x, acts_at m1 ae1 a h [x] <-> acts_at m2 ae2 a h' [x]) -> Permutation (st m1 ae1 a h) (st m2 ae2 a h').
Proof.
  intros m1 m2 ae1 ae2 a h h' G1 G2 S1 S2 H1 H2 A. destruct (st_spec m1 ae1 G1 a h S1 H1) as [N1 I1]. destruct (st_spec m2 ae2 G2 a h' S2 H2) as [N2 I2].
  apply NoDup_Permutation; [exact N1|exact N2|]. intros x. rewrite I1, I2. apply A.
Qed.

Lemma flip_sum : forall u a l d, space m ae a ->
  ksum (map (fun h => ksum (map (summand e (flipu u) l a d h) (st m' ae a h))) ops') =
  kmul (sgnf f a) (ksum (map (fun h => ksum (map (summand e u l a d h) (st m ae a h))) ops)).
Proof.
  intros u a l d Sa. rewrite <- ksum_scal. apply ksum_Forall2.
  pose proof (Forall2_In_l _ _ _ flip_ops) as F2.
  assert (F3 : Forall2 (fun h h' => (scaled_op e (sc h) h h' /\ In h ops) /\ In h' ops') ops ops').
  { clear -F2. induction F2 as [|x y l l' H F IH]; constructor; [simpl; tauto|]. eapply Forall2_impl; [|exact IH]. simpl. tauto. }
  eapply Forall2_impl; [|exact F3]. intros h h' [[SC Hh] Hh']. rewrite <- ksum_scal.
  rewrite (ksum_perm _ _ (Permutation_map _ (st_perm m' m ae ae a h' h flip_good G (proj2 (flip_space a) Sa) Sa Hh' Hh (fun x => flip_acts _ _ _ _ _ SC)))).
  apply ksum_ext. intros x Hx. apply (st_spec m ae G a h Sa Hh) in Hx. apply flip_summand; assumption.
Qed.

Lemma vac_same : vac m' = vac m. Proof. destruct Fl as [SF _]. unfold vac. rewrite (sf_ntypes _ _ SF). reflexivity. Qed.

Lemma single_sgn : forall h, In h ops -> sgnf f (single_phonon (m_ntypes m) 1 (ht_index h)) = sc h.
Proof.
  intros h Hh. pose proof (gm_index _ _ G h Hh) as Hi. destruct (single_phonon_valid (m_ntypes m) 1 (ht_index h) Hi ltac:(lia)) as [Vs _].
  destruct (vac_valid m) as [Vv [Tv Nv]]. assert (Ns : ndim (single_phonon (m_ntypes m) 1 (ht_index h)) = 1%nat) by reflexivity.
  assert (M : modified_by (vac m) (single_phonon (m_ntypes m) 1 (ht_index h)) [0] (ht_index h) [0] 1).
  { split; [reflexivity|]. split; [reflexivity|]. split; [reflexivity|]. intros t x Lx. rewrite Nv in Lx. rewrite single_phonon_occ by assumption.
    assert (F0 : phonon_free (vac m)) by (apply valid_total_free; assumption). rewrite F0. destruct x as [|y [|]]; try discriminate.
    cbn [addv zerov repeat]. rewrite Z.add_0_r. reflexivity. }
  rewrite (sgnf_modified f _ _ _ _ _ 1 Vv Vs M); [|reflexivity|exact Hi|auto]. unfold sc.
  rewrite (sgnf_free f (vac m) Vv); [ring|apply valid_total_free; assumption].
Qed.

Lemma flip_green : forall u, ksum (map (gsummand e (flipu u) (m_ntypes m')) (filter creation ops')) = ksum (map (gsummand e u (m_ntypes m)) (filter creation ops)).
Proof.
  intros u. apply ksum_Forall2. destruct Fl as [SF _].
  assert (F3 : Forall2 (fun h h' => scaled_op e (sc h) h h' /\ In h ops) (filter creation ops) (filter creation ops')).
  { apply (Forall2_filter _ creation creation); [|apply (Forall2_In_l _ _ _ flip_ops)]. intros h h' [[_ [_ [D _]]] _]. unfold creation. rewrite D. reflexivity. }
  eapply Forall2_impl; [|exact F3]. intros h h' [[E1 [E2 [E3 [E4 E5]]]] Hh]. unfold gsummand, flipu, psi1, phi1. cbn [fst].
  rewrite (sf_ntypes _ _ SF), E1, E2, E4, E5, (single_sgn h Hh).
  assert (SQ : kmul (sc h) (sc h) = k1) by (unfold sc; destruct (f _); ring).
  match goal with |- kmul (kmul (kmul (kmul _ ?c) _) ?p) (kmul _ ?w) = _ => transitivity (kmul (kmul (sc h) (sc h)) (kmul (kmul (kmul c (kz 1)) p) w)); [ring|rewrite SQ; ring] end.
Qed.

Lemma flip_conditions : forall u g, conditions m ae e u g -> conditions m' ae e (flipu u) g.
Proof.
  intros u g [C1 C2]. destruct Fl as [SF _]. split.
  - intros a d l Sa R El. apply flip_space in Sa. apply flip_reached in R. rewrite (sf_freqs _ _ SF) in El. fold ops'. rewrite (flip_sum u a l d Sa).
    unfold flipu at 1. cbn [fst]. pose proof (C1 a d l Sa R El) as E. fold ops in E.
    transitivity (kmul (sgnf f a) (kadd (u (a, [d])) (ksum (map (fun h => ksum (map (summand e u l a d h) (st m ae a h))) ops)))); [ring|]. rewrite E. ring.
  - fold ops'. rewrite flip_green. rewrite vac_same. unfold flipu. cbn [fst]. destruct (vac_valid m) as [Vv [Tv _]].
    rewrite (sgnf_free f (vac m) Vv) by (apply valid_total_free; assumption). fold ops in C2.
    rewrite <- C2. ring.
Qed.

Lemma flipu_vac : forall u, flipu u (vac m', [0]) = u (vac m, [0]).
Proof.
  intros u. rewrite vac_same. unfold flipu. cbn [fst]. destruct (vac_valid m) as [Vv [Tv _]].
  rewrite (sgnf_free f (vac m) Vv) by (apply valid_total_free; assumption). ring.
Qed.
End Flip.

Section FlipSym.
Context {T : Type} {K : cring}.
Add Ring KRfs : (klaws K).
Lemma flipped_sym : forall (e : env T K) f m m', flipped e f m m' -> flipped e f m' m.
Proof.
  intros e f m m' [SF F2]. split; [destruct SF; constructor; auto|].
  assert (ONE : forall (x : K) (b : bool), x = kmul (if b then kopp k1 else k1) (kmul (if b then kopp k1 else k1) x)) by (intros x b; destruct b; ring).
  induction F2 as [|h h' l l' [E1 [E2 [E3 [E4 E5]]]] F IH]; constructor; [|exact IH].
  unfold scaled_op. rewrite E4. repeat (split; [congruence|]). rewrite E5. apply ONE.
Qed.

(** Both systems give the same Green's function. *)
Lemma flip_result : forall (m m' : model T) ae ord ord' s s' (e : env T K) f sp X v X' v',
  good_model m ae -> flipped e f m m' ->
  (forall k l, Permutation (ord k l) l) -> (forall k l, Permutation (ord' k l) l) ->
  prime_system ord m = Ok s -> prime_system ord' m' = Ok s' ->
  scaffold e (full_basis s) s = Ok (X, v) -> scaffold e (full_basis s') s' = Ok (X', v') ->
  nonsingular X -> nonsingular X' /\ (solves X v (sp X v) -> solves X' v' (sp X' v') -> sparse_solve e sp s' = sparse_solve e sp s).
Proof.
  intros m m' ae ord ord' s s' e f sp X v X' v' G Fl P P' Es Es' E E' NS. pose proof (flip_good m m' ae e f G Fl) as G'.
  pose proof (flipped_sym _ _ _ _ Fl) as Fl'.
  assert (NS' : nonsingular X').
  { apply (same_regular m m' ae ae G G' ord ord' s s' P P' Es Es' e e X v X' v' E E' NS). intros u' Pu' C'.
    exists (flipu f u'). split; [apply flipu_proper; exact Pu'|]. split; [apply (flip_conditions m' m ae e f G' Fl'); exact C'|].
    intros [Z1 Z2]. assert (Z0 : forall a d, flipu f u' (a, [d]) = k0 -> u' (a, [d]) = k0).
    { intros a d Hz. unfold flipu in Hz. cbn [fst] in Hz. transitivity (kmul (kmul (sgnf f a) (sgnf f a)) (u' (a, [d]))).
      - rewrite sgnf_sq. ring.
      - transitivity (kmul (sgnf f a) (kmul (sgnf f a) (u' (a, [d])))); [ring|]. rewrite Hz. ring. }
    split; [apply Z0; rewrite (vac_same m m' e f Fl); exact Z1|]. intros a d Sa R. apply Z0, Z2; [apply (flip_space m m' ae e f Fl); exact Sa|apply (flip_reached m m' ae e f Fl); exact R]. }
  split; [exact NS'|]. intros SV SV'.
  apply (same_result m m' ae ae G G' ord ord' s s' P P' Es Es' e e sp X v X' v' E E' SV SV' NS').
  intros u Pu C. exists (flipu f u). split; [apply flipu_proper; exact Pu|]. split; [apply (flip_conditions m m' ae e f G Fl); exact C|].
  apply (flipu_vac m m' e f Fl).
Qed.
End FlipSym.
