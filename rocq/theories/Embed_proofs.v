(** Phonon types without couplings do not matter (C48). *)
From Coq Require Import String ZArith List Bool Lia Permutation Ring.
From Verif Require Import Base NdArray NdArray_proofs Config Spec Spec_ops Config_proofs Modify_proofs Legal_proofs
  Model HModel Space Spec_space Space_proofs Count_proofs Render Render_proofs Term Equation System Spec_engine
  Term_proofs Equation_proofs System_proofs Prime_proofs Engine_proofs Order_proofs Ring Coef Spec_eom Eom_proofs
  Solvers Spec_solve Sysok_proofs Sparse_proofs Spec_model Spec_sym Rows_proofs Sym_proofs Mirror_proofs.
Import ListNotations.
Open Scope list_scope.
Open Scope Z_scope.

Section Emb.
Variables (w : nat -> nat) (n0 nt : nat).
Hypothesis Inj : forall t t', (t < n0)%nat -> (t' < n0)%nat -> w t = w t' -> t = t'.
Hypothesis Rng : forall t, (t < n0)%nat -> (w t < nt)%nat.

Definition emb (a : nd) : nd :=
  tab [nt; len a] (fun i => match i with [j; x] => match find (fun t => Nat.eqb (w t) j) (seq 0 n0) with Some t => get a [t; x] | None => 0 end | _ => 0 end).

Lemma find_live : forall t, (t < n0)%nat -> find (fun t' => Nat.eqb (w t') (w t)) (seq 0 n0) = Some t.
Proof.
  intros t Ht. destruct (find (fun t' => Nat.eqb (w t') (w t)) (seq 0 n0)) as [t'|] eqn:E.
  - apply find_some in E. destruct E as [E1 E2]. apply in_seq in E1. apply Nat.eqb_eq in E2. f_equal. apply Inj; [lia|exact Ht|exact E2].
  - exfalso. assert (H := find_none _ _ E t ltac:(apply in_seq; lia)). cbn beta in H. rewrite Nat.eqb_refl in H. discriminate.
Qed.

Lemma find_dead : forall j, (forall t, (t < n0)%nat -> w t <> j) -> find (fun t' => Nat.eqb (w t') j) (seq 0 n0) = None.
Proof.
  intros j H. destruct (find (fun t' => Nat.eqb (w t') j) (seq 0 n0)) as [t'|] eqn:E; [|reflexivity].
  apply find_some in E. destruct E as [E1 E2]. apply in_seq in E1. apply Nat.eqb_eq in E2. exfalso. apply (H t'); [lia|exact E2].
Qed.

Lemma live_or_dead : forall j, (exists t, (t < n0)%nat /\ w t = j) \/ (forall t, (t < n0)%nat -> w t <> j).
Proof.
  intros j. destruct (find (fun t' => Nat.eqb (w t') j) (seq 0 n0)) as [t'|] eqn:E.
  - apply find_some in E. destruct E as [E1 E2]. apply in_seq in E1. apply Nat.eqb_eq in E2. left. exists t'. split; [lia|exact E2].
  - right. intros t Ht E2. assert (H := find_none _ _ E t ltac:(apply in_seq; lia)). cbn beta in H. rewrite E2, Nat.eqb_refl in H. discriminate.
Qed.

Section One.
Variables (a : nd) (L : nat).
Hypothesis Sh : shp a = [n0; L].
Lemma emb_shp : shp (emb a) = [nt; L]. Proof. unfold emb. cbn [shp]. rewrite (len_L a n0 L Sh). reflexivity. Qed.
Lemma emb_len : len (emb a) = L. Proof. unfold len. rewrite emb_shp. reflexivity. Qed.

Lemma get_emb : forall t x, (t < n0)%nat -> (x < L)%nat -> get (emb a) [w t; x] = get a [t; x].
Proof.
  intros t x Ht Hx. unfold emb. rewrite get_tab; [rewrite (find_live t Ht); reflexivity|]. apply inr2. exists (w t), x. rewrite (len_L a n0 L Sh). split; [reflexivity|]. split; [apply Rng; exact Ht|exact Hx].
Qed.
Lemma get_emb_dead : forall j x, (j < nt)%nat -> (x < L)%nat -> (forall t, (t < n0)%nat -> w t <> j) -> get (emb a) [j; x] = 0.
Proof.
  intros j x Hj Hx D. unfold emb. rewrite get_tab; [rewrite (find_dead j D); reflexivity|]. apply inr2. exists j, x. rewrite (len_L a n0 L Sh). auto.
Qed.

Lemma occ_emb : forall t x, (t < n0)%nat -> occ (emb a) (w t) [x] = occ a t [x].
Proof.
  intros t x Ht. rewrite (occ2 nt L (emb a) emb_shp), (occ2 n0 L a Sh). pose proof (Rng t Ht) as R.
  rewrite (proj2 (Nat.ltb_lt _ _) Ht), (proj2 (Nat.ltb_lt _ _) R). cbn [andb].
  destruct (0 <=? x) eqn:E1; destruct (x <? Z.of_nat L) eqn:E2; cbn [andb]; try reflexivity. apply get_emb; [exact Ht|lia].
Qed.
Lemma occ_emb_dead : forall j x, (forall t, (t < n0)%nat -> w t <> j) -> occ (emb a) j [x] = 0.
Proof.
  intros j x D. rewrite (occ2 nt L (emb a) emb_shp). destruct (Nat.ltb_spec j nt); cbn [andb]; [|reflexivity].
  destruct (0 <=? x) eqn:E1; destruct (x <? Z.of_nat L) eqn:E2; cbn [andb]; try reflexivity. apply get_emb_dead; [assumption|lia|exact D].
Qed.
Lemma occ_high : forall t x, (n0 <= t)%nat -> occ a t [x] = 0.
Proof. intros t x Ht. rewrite (occ2 n0 L a Sh). destruct (Nat.ltb_spec t n0); [lia|reflexivity]. Qed.

Lemma all_idx1 : forall i, In i (all_idx [L]) <-> exists x, i = [x] /\ (x < L)%nat.
Proof.
  intros i. rewrite In_all_idx. split.
  - intros H. inversion H as [|? ? ? ? H1 H2]; subst. inversion H2; subst. eauto.
  - intros [x [-> Hx]]. repeat constructor; assumption.
Qed.

Lemma emb_type : forall t, (t < n0)%nat -> total_type (emb a) (w t) = total_type a t.
Proof.
  intros t Ht. unfold total_type. rewrite emb_shp, Sh. cbn [tl]. f_equal. apply map_ext_in. intros i Hi. apply all_idx1 in Hi. destruct Hi as [x [-> Hx]].
  apply get_emb; assumption.
Qed.
Lemma emb_type_dead : forall j, (j < nt)%nat -> (forall t, (t < n0)%nat -> w t <> j) -> total_type (emb a) j = 0.
Proof.
  intros j Hj D. unfold total_type. rewrite emb_shp. cbn [tl]. apply sumZ_map_zero. intros i Hi. apply all_idx1 in Hi. destruct Hi as [x [-> Hx]].
  apply get_emb_dead; assumption.
Qed.

Lemma emb_nonneg : (forall t x, 0 <= occ a t x) -> forall j x, 0 <= occ (emb a) j x.
Proof.
  intros N j x. destruct (Nat.eq_dec (List.length x) 1) as [E|E]; [|rewrite (occ_other _ _ (emb a) emb_shp j x E); lia].
  destruct x as [|y [|]]; try discriminate. destruct (live_or_dead j) as [[t [Ht <-]]|D]; [rewrite (occ_emb t y Ht); apply N|rewrite (occ_emb_dead j y D); lia].
Qed.

Lemma emb_free : phonon_free (emb a) <-> phonon_free a.
Proof.
  split; intros Fr t x.
  - destruct (Nat.eq_dec (List.length x) 1) as [E|E]; [|apply (occ_other _ _ a Sh t x E)]. destruct x as [|y [|]]; try discriminate.
    destruct (Nat.lt_ge_cases t n0) as [Ht|Ht]; [rewrite <- (occ_emb t y Ht); apply Fr|apply occ_high; exact Ht].
  - destruct (Nat.eq_dec (List.length x) 1) as [E|E]; [|apply (occ_other _ _ (emb a) emb_shp t x E)]. destruct x as [|y [|]]; try discriminate.
    destruct (live_or_dead t) as [[t' [Ht' <-]]|D]; [rewrite (occ_emb t' y Ht'); apply Fr|apply occ_emb_dead; exact D].
Qed.

Lemma emb_valid : valid_cloud a -> valid_cloud (emb a).
Proof.
  intros [W [R [N FT]]]. split; [apply wf_tab|]. split; [rewrite emb_shp; simpl; lia|]. split; [apply emb_nonneg; exact N|].
  destruct FT as [F0|Ti]; [left; apply emb_free; exact F0|right]. intros d Hd.
  assert (N1 : ndim a = 1%nat) by (unfold ndim; rewrite Sh; reflexivity). assert (N1' : ndim (emb a) = 1%nat) by (unfold ndim; rewrite emb_shp; reflexivity).
  rewrite N1' in Hd. assert (d = 0)%nat as -> by lia. destruct (Ti 0%nat ltac:(lia)) as [T1 T2]. rewrite emb_shp. rewrite Sh in T2. cbn [nth] in *.
  assert (H : forall p, occupied_slab a 0 p -> occupied_slab (emb a) 0 p).
  { intros p Hp. apply (slab_1d a _ N1) in Hp. apply (slab_1d (emb a) _ N1'). destruct Hp as [t Ht]. exists (w t).
    destruct (Nat.lt_ge_cases t n0) as [C|C]; [rewrite (occ_emb t p C); exact Ht|rewrite (occ_high t p C) in Ht; lia]. }
  split; apply H; assumption.
Qed.

Lemma emb_present : forall {T} (fs fs0 : list T) l l0, (forall t, (t < n0)%nat -> nth_error fs0 t = nth_error fs (w t)) ->
  energy_of fs (emb a) l -> energy_of fs0 a l0 -> Permutation (present l) (present l0).
Proof.
  intros T fs fs0 l l0 HF [L1 E1] [L2 E2]. unfold ntypes in *. rewrite emb_shp in *. rewrite Sh in *. cbn [hd] in *. destruct n0 as [|n0'] eqn:En0.
  - assert (l0 = []) as -> by (destruct l0; [reflexivity|discriminate]). assert (present l = []) as ->; [|constructor].
    assert (H : forall p, In p l -> snd p = 0).
    { intros p Hp. apply In_nth_error in Hp. destruct Hp as [n Hn]. assert (Hlt : (n < nt)%nat) by (rewrite <- L1; apply nth_error_Some; congruence).
      destruct (E1 n Hlt) as [g [_ E]]. rewrite E in Hn. assert (p = (g, total_type (emb a) n)) as -> by congruence. cbn [snd]. rewrite <- En0 in *. apply emb_type_dead; [exact Hlt|]. intros t Ht. lia. }
    clear -H. induction l as [|p l IH]; [reflexivity|]. unfold present in *. cbn [filter]. rewrite (H p) by (simpl; auto). cbn. apply IH. intros; apply H; simpl; auto.
  - rewrite <- En0 in *. assert (D : exists f0 : T, True).
    { destruct (E2 0%nat ltac:(lia)) as [g _]. exists g. exact I. } destruct D as [f0 _].
    set (F := fun j => nth j l (f0, 0)). set (F0 := fun j => nth j l0 (f0, 0)).
    assert (EL : l = map F (seq 0 nt)).
    { apply nth_error_ext_eq. intros n. destruct (Nat.lt_ge_cases n nt) as [C|C].
      - rewrite (nth_error_nth' l (f0, 0)) by lia. change (nth n l (f0, 0)) with (F n). symmetry. apply map_nth_error. rewrite (nth_error_nth' _ 0%nat) by (rewrite seq_length; lia). rewrite seq_nth by lia. reflexivity.
      - rewrite !(proj2 (nth_error_None _ n)); [reflexivity|rewrite map_length, seq_length; lia|lia]. }
    assert (EL0 : l0 = map F0 (seq 0 n0)).
    { apply nth_error_ext_eq. intros n. destruct (Nat.lt_ge_cases n n0) as [C|C].
      - rewrite (nth_error_nth' l0 (f0, 0)) by lia. change (nth n l0 (f0, 0)) with (F0 n). symmetry. apply map_nth_error. rewrite (nth_error_nth' _ 0%nat) by (rewrite seq_length; lia). rewrite seq_nth by lia. reflexivity.
      - rewrite !(proj2 (nth_error_None _ n)); [reflexivity|rewrite map_length, seq_length; lia|lia]. }
    assert (EF : forall t, (t < n0)%nat -> F (w t) = F0 t).
    { intros t Ht. destruct (E2 t Ht) as [g [G1 G2]]. destruct (E1 (w t) (Rng t Ht)) as [g' [G1' G2']]. rewrite HF in G1 by exact Ht. assert (g' = g) by congruence. subst g'.
      unfold F, F0. rewrite (nth_error_nth _ _ _ G2), (nth_error_nth _ _ _ G2'), emb_type by exact Ht. reflexivity. }
    assert (ED : forall j, (j < nt)%nat -> snd (F j) <> 0 -> exists t, (t < n0)%nat /\ w t = j).
    { intros j Hj Hn. destruct (live_or_dead j) as [H|D]; [exact H|]. exfalso. apply Hn. destruct (E1 j Hj) as [g [_ G2]]. unfold F. rewrite (nth_error_nth _ _ _ G2). cbn [snd]. apply emb_type_dead; assumption. }
    rewrite EL, EL0. unfold present. clear -Inj Rng EF ED.
    assert (FM : forall {A B} (g : A -> B) (p : B -> bool) l, filter p (map g l) = map g (filter (fun x => p (g x)) l)).
    { intros A B g p l1. induction l1 as [|x l1 IH]; [reflexivity|]. cbn [map filter]. destruct (p (g x)); cbn [map]; rewrite IH; reflexivity. }
    rewrite !FM. assert (P : Permutation (filter (fun x => negb (snd (F x) =? 0)) (seq 0 nt)) (map w (filter (fun x => negb (snd (F0 x) =? 0)) (seq 0 n0)))).
    { apply NoDup_Permutation; [apply NoDup_filter, seq_NoDup|apply NoDup_map_inj; [|apply NoDup_filter, seq_NoDup]|].
      - intros x y Hx Hy. apply filter_In in Hx, Hy. destruct Hx as [Hx _], Hy as [Hy _]. apply in_seq in Hx, Hy. apply Inj; lia.
      - intros j. rewrite filter_In, in_map_iff, in_seq. split.
        + intros [Hj Hn]. apply negb_true_iff, Z.eqb_neq in Hn. destruct (ED j ltac:(lia) Hn) as [t [Ht <-]]. exists t. split; [reflexivity|]. apply filter_In. split; [apply in_seq; lia|].
          rewrite <- (EF t Ht). apply negb_true_iff, Z.eqb_neq. exact Hn.
        + intros [t [<- Ht]]. apply filter_In in Ht. destruct Ht as [Ht Hn]. apply in_seq in Ht. split; [pose proof (Rng t ltac:(lia)); lia|]. rewrite (EF t ltac:(lia)). exact Hn. }
    rewrite (Permutation_map F P), map_map. apply Permutation_refl'. apply map_ext_in. intros t Ht. apply filter_In in Ht. destruct Ht as [Ht _]. apply in_seq in Ht. apply EF. lia.
Qed.
End One.

Lemma emb_modified : forall a b L Lb s t x z, shp a = [n0; L] -> shp b = [n0; Lb] -> (t < n0)%nat ->
  modified_by a b s t [x] z -> modified_by (emb a) (emb b) s (w t) [x] z.
Proof.
  intros a b L Lb s t x z Sa Sb Ht [M1 [M2 [M3 M4]]].
  assert (Na : ndim a = 1%nat) by (unfold ndim; rewrite Sa; reflexivity). assert (Na' : ndim (emb a) = 1%nat) by (unfold ndim; rewrite (emb_shp a L Sa); reflexivity).
  split; [rewrite (emb_shp a L Sa), (emb_shp b Lb Sb); reflexivity|]. split; [unfold ntypes; rewrite (emb_shp a L Sa), (emb_shp b Lb Sb); reflexivity|].
  split; [rewrite Na', <- Na; exact M3|]. intros j y Ly. rewrite Na' in Ly. rewrite Na in *. destruct y as [|y [|]]; try discriminate. destruct s as [|s [|]]; try discriminate.
  cbn [addv]. destruct (live_or_dead j) as [[t' [Ht' <-]]|D].
  - rewrite (occ_emb b Lb Sb t' y Ht'), (occ_emb a L Sa t' _ Ht'), M4 by reflexivity. cbn [addv]. f_equal.
    replace (Nat.eqb (w t') (w t)) with (Nat.eqb t' t); [reflexivity|]. destruct (Nat.eqb_spec t' t) as [->|Ne]; [rewrite Nat.eqb_refl; reflexivity|].
    symmetry. apply Nat.eqb_neq. intros E. apply Ne. apply Inj; assumption.
  - rewrite (occ_emb_dead b Lb Sb j y D), (occ_emb_dead a L Sa j _ D). replace (Nat.eqb j (w t)) with false; [reflexivity|]. symmetry. apply Nat.eqb_neq. intros ->. apply (D t Ht). reflexivity.
Qed.
End Emb.

Section Part.
Context {T : Type} {K : cring}.
Add Ring KRpa : (klaws K).
Variables (m m0 : model T) (ae ae0 : Z) (e : env T K) (w : nat -> nat).
Hypotheses (G : good_model m ae) (G0' : good_model m0 ae0).
Hypothesis PO : part_of e w m0 m.
Hypothesis AD : additive e.
(** The larger of the two absolute extents does not matter for [m0]. *)
Hypothesis AE : forall a, space m0 ae a <-> space m0 ae0 a.
Variables (live dead : list (hterm T)).
Let ops := h_terms (m_ham m).
Let ops0 := h_terms (m_ham m0).
Hypothesis P : Permutation ops (live ++ dead).
Hypothesis FL : Forall2 (same_op e w) ops0 live.
Hypothesis FD : Forall (fun h => ev e (ht_coupling h) = k0) dead.
Let n0 := m_ntypes m0.
Let nt := m_ntypes m.
Let em := emb w n0 nt.
Let Inj := po_inj _ _ _ _ PO.
Let Rng := po_rng _ _ _ _ PO.

Lemma shape0 : forall a, space m0 ae0 a -> shp a = [n0; len a].
Proof. intros a Sa. apply space_shape with (ae := ae0). exact Sa. Qed.

Lemma emb_space : forall a, space m0 ae0 a -> space m ae (em a).
Proof.
  intros a Sa0. pose proof (shape0 a Sa0) as Sh. pose proof (proj2 (AE a) Sa0) as Sa.
  destruct (space_unfold m0 ae a Sa) as [V [NF [_ [_ [_ [[z [E Hz]] [_ [L1 [L2 L3]]]]]]]]].
  pose proof (emb_shp w n0 nt a _ Sh) as She. apply space_intro.
  - apply (emb_valid w n0 nt Inj Rng a _ Sh V).
  - intros Fr. apply NF. apply (emb_free w n0 nt Inj Rng a _ Sh). exact Fr.
  - exists (len a). split; [exact She|]. assert (z = len a) by congruence. subst z. lia.
  - intros k Ek j x. destruct (Nat.eq_dec (List.length x) 1) as [Lx|Lx]; [|rewrite (occ_other _ _ (em a) She j x Lx); pose proof (gm_mps _ _ G k Ek); lia].
    destruct x as [|y [|]]; try discriminate. destruct (live_or_dead w n0 nt Inj Rng j) as [[t [Ht <-]]|D].
    + unfold em. rewrite (occ_emb w n0 nt Inj Rng a _ Sh t y Ht). apply L1. rewrite (po_mps _ _ _ _ PO). exact Ek.
    + unfold em. rewrite (occ_emb_dead w n0 nt Inj Rng a _ Sh j y D). pose proof (gm_mps _ _ G k Ek); lia.
  - intros j Hj. destruct (live_or_dead w n0 nt Inj Rng j) as [[t [Ht <-]]|D].
    + rewrite <- (po_pe _ _ _ _ PO t Ht). destruct (L2 t Ht) as [W1 W2]. split; [exact W1|]. intros x y Hx Hy.
      destruct (Nat.eq_dec (List.length x) 1) as [Lx|Lx]; [|rewrite (occ_other _ _ (em a) She _ x Lx) in Hx; lia].
      destruct (Nat.eq_dec (List.length y) 1) as [Ly|Ly]; [|rewrite (occ_other _ _ (em a) She _ y Ly) in Hy; lia].
      destruct x as [|x [|]]; try discriminate. destruct y as [|y [|]]; try discriminate. unfold em in Hx, Hy.
      rewrite (occ_emb w n0 nt Inj Rng a _ Sh t _ Ht) in Hx. rewrite (occ_emb w n0 nt Inj Rng a _ Sh t _ Ht) in Hy. apply W2; assumption.
    + split; [pose proof (gm_pe _ _ G j Hj); lia|]. intros x y Hx Hy. exfalso.
      destruct (Nat.eq_dec (List.length x) 1) as [Lx|Lx]; [|rewrite (occ_other _ _ (em a) She _ x Lx) in Hx; lia].
      destruct x as [|x [|]]; try discriminate. unfold em in Hx. rewrite (occ_emb_dead w n0 nt Inj Rng a _ Sh j x D) in Hx. lia.
  - intros j Hj. destruct (live_or_dead w n0 nt Inj Rng j) as [[t [Ht <-]]|D].
    + rewrite <- (po_pn _ _ _ _ PO t Ht). unfold em. rewrite (emb_type w n0 nt Inj Rng a _ Sh t Ht). apply L3; exact Ht.
    + unfold em. rewrite (emb_type_dead w n0 nt Inj Rng a _ Sh j Hj D). pose proof (gm_pn _ _ G j Hj); lia.
Qed.

Lemma unemb_space : forall a L, shp a = [n0; L] -> valid_cloud a -> space m ae (em a) -> space m0 ae0 a.
Proof.
  intros a L Sh V Se. apply AE. pose proof (emb_shp w n0 nt a _ Sh) as She. destruct (space_unfold m ae (em a) Se) as [_ [NF [_ [_ [_ [[z [E Hz]] [_ [L1 [L2 L3]]]]]]]]].
  apply space_intro.
  - exact V.
  - intros Fr. apply NF. apply (emb_free w n0 nt Inj Rng a _ Sh). exact Fr.
  - exists L. split; [exact Sh|]. assert (z = L) by (unfold em in E; congruence). subst z. lia.
  - intros k Ek t x. destruct (Nat.eq_dec (List.length x) 1) as [Lx|Lx]; [|rewrite (occ_other _ _ a Sh t x Lx); pose proof (gm_mps _ _ G0' k Ek); lia].
    destruct x as [|y [|]]; try discriminate. destruct (Nat.lt_ge_cases t n0) as [Ht|Ht].
    + rewrite <- (occ_emb w n0 nt Inj Rng a _ Sh t y Ht). apply L1. rewrite <- (po_mps _ _ _ _ PO). exact Ek.
    + rewrite (occ_high w n0 nt Inj Rng a _ Sh t y Ht). pose proof (gm_mps _ _ G0' k Ek); lia.
  - intros t Ht. rewrite (po_pe _ _ _ _ PO t Ht). destruct (L2 (w t) (Rng t Ht)) as [W1 W2]. split; [exact W1|]. intros x y Hx Hy.
    destruct (Nat.eq_dec (List.length x) 1) as [Lx|Lx]; [|rewrite (occ_other _ _ a Sh _ x Lx) in Hx; lia].
    destruct (Nat.eq_dec (List.length y) 1) as [Ly|Ly]; [|rewrite (occ_other _ _ a Sh _ y Ly) in Hy; lia].
    destruct x as [|x [|]]; try discriminate. destruct y as [|y [|]]; try discriminate.
    rewrite <- (occ_emb w n0 nt Inj Rng a _ Sh t _ Ht) in Hx. rewrite <- (occ_emb w n0 nt Inj Rng a _ Sh t _ Ht) in Hy. apply W2; assumption.
  - intros t Ht. rewrite (po_pn _ _ _ _ PO t Ht). rewrite <- (emb_type w n0 nt Inj Rng a _ Sh t Ht). apply L3. apply Rng; exact Ht.
Qed.

Lemma live_in : forall h, In h live -> In h ops.
Proof. intros h H. apply (Permutation_in _ (Permutation_sym P)). apply in_or_app. auto. Qed.

Lemma emb_acts : forall a h0 h x, space m0 ae0 a -> In h0 ops0 -> In h ops -> same_op e w h0 h ->
  (acts_at m ae (em a) h [x] <-> acts_at m0 ae0 a h0 [x]).
Proof.
  intros a h0 h x Sa Hh0 Hh [_ [_ [D [I _]]]]. pose proof (shape0 a Sa) as Sh. pose proof (gm_index _ _ G0' h0 Hh0) as Hi.
  unfold acts_at. rewrite D, I. destruct (ht_dag h0).
  - destruct (space_unfold m0 ae0 a Sa) as [V [NF [_ [NT [N1 _]]]]].
    destruct (add_spec_prop a 1 0 (ht_index h0) [x] V NF ltac:(lia) ltac:(lia) ltac:(rewrite N1; reflexivity)) as [b0 [s0 [_ [Vb0 [M0 [Tb0 _]]]]]].
    pose proof (mod_shape m0 ae0 a b0 _ _ _ _ Sa M0) as Shb. pose proof (emb_modified w n0 nt Inj Rng a b0 _ _ _ _ x 1 Sh Shb Hi M0) as Me.
    pose proof (emb_valid w n0 nt Inj Rng b0 _ Shb Vb0) as Vbe.
    assert (NFb : ~ phonon_free b0) by (apply pos_not_free; [exact Vb0|pose proof (valid_not_free_pos a V NF); lia]).
    assert (NFbe : ~ phonon_free (em b0)) by (intros Fr; apply NFb; apply (emb_free w n0 nt Inj Rng b0 _ Shb); exact Fr).
    split; intros [L1 [b [s [Vb [M Sb]]]]]; (split; [exact L1|]).
    + exists b0, (map Z.opp s0). split; [exact Vb0|]. split; [exact M0|]. apply (unemb_space b0 _ Shb Vb0).
      destruct (space_unfold m ae b Sb) as [_ [NF' _]].
      destruct (modified_unique (em a) (em b0) b _ _ _ _ _ (emb_valid w n0 nt Inj Rng a _ Sh V) Vbe Vb NFbe NF' Me M) as [<- _]. exact Sb.
    + destruct (space_unfold m0 ae0 b Sb) as [_ [NF' _]]. destruct (modified_unique a b0 b _ _ _ _ _ V Vb0 Vb NFb NF' M0 M) as [-> _].
      exists (em b0), (map Z.opp s0). split; [exact Vbe|]. split; [exact Me|]. apply emb_space; exact Sb.
  - unfold em. rewrite (occ_emb w n0 nt Inj Rng a _ Sh _ x Hi). reflexivity.
Qed.

Definition embu (u : nd * list Z -> K) (p : nd * list Z) : K := if total (fst p) =? 0 then u p else u (em (fst p), snd p).

Lemma embu_proper : forall u, proper u -> proper (embu u).
Proof.
  intros u Pu a a' d V V' F0 F0'. unfold embu. cbn [fst snd]. rewrite (proj2 (valid_total_free a V) F0), (proj2 (valid_total_free a' V') F0'). apply Pu; assumption.
Qed.

Lemma emb_summand : forall u a h0 h x l l0 d, proper u -> space m0 ae0 a -> In h0 ops0 -> In h ops -> same_op e w h0 h -> acts_at m0 ae0 a h0 [x] ->
  (forall v, g0 e v l = g0 e v l0) -> summand e (embu u) l0 a d h0 x = summand e u l (em a) d h x.
Proof.
  intros u a h0 h x l l0 d Pu Sa Hh0 Hh SO A EG. pose proof SO as [Epsi [Ephi [D [I C]]]]. pose proof (shape0 a Sa) as Sh. pose proof (gm_index _ _ G0' h0 Hh0) as Hi.
  pose proof (proj2 (emb_acts a h0 h x Sa Hh0 Hh SO) A) as A'. pose proof (emb_space a Sa) as Se.
  destruct (space_unfold m0 ae0 a Sa) as [Va _].
  destruct (next_spec m0 ae0 G0' a h0 x Sa Hh0 A) as [Vb [Mb [Tb _]]]. destruct (next_spec m ae G (em a) h x Se Hh A') as [Vb' [Mb' [Tb' _]]].
  remember (next a h0 x) as n eqn:En. destruct n as [b s]. remember (next (em a) h x) as n' eqn:En'. destruct n' as [b' s']. cbn [fst snd] in *.
  assert (ES : sgn h = sgn h0) by (unfold sgn; rewrite D; reflexivity). rewrite I, ES in Mb'.
  pose proof (mod_shape m0 ae0 a b _ _ _ _ Sa Mb) as Shb. pose proof (emb_modified w n0 nt Inj Rng a b _ _ _ _ x _ Sh Shb Hi Mb) as Me.
  pose proof (emb_valid w n0 nt Inj Rng b _ Shb Vb) as Vbe. pose proof (emb_valid w n0 nt Inj Rng a _ Sh Va) as Vae.
  assert (E1 : ev e (ht_coupling h0) = ev e (ht_coupling h)) by (symmetry; exact C).
  assert (E2 : multi a h0 x = multi (em a) h x).
  { unfold multi. rewrite D, I. destruct (ht_dag h0); [reflexivity|]. unfold em. rewrite (occ_emb w n0 nt Inj Rng a _ Sh _ x Hi). reflexivity. }
  assert (E3 : psi1 h = psi1 h0 /\ phi1 h = phi1 h0) by (unfold psi1, phi1; rewrite Epsi, Ephi; auto). destruct E3 as [E3 E4].
  unfold summand. rewrite <- En, <- En', E1, E2, E3, E4, EG. f_equal. unfold jump. cbn [fst snd].
  assert (TE : total b' = total (emb w n0 nt b)).
  { assert (N1 : List.length [x] = ndim (em a)) by (unfold ndim, em; rewrite (emb_shp w n0 nt a _ Sh); reflexivity).
    assert (RK : (0 < List.length (shp (em a)))%nat) by (pose proof (valid_rank _ Vae); unfold em; lia).
    transitivity (total (em a) + sgn h0); [|symmetry]; eapply (modified_total (em a));
      [apply valid_wf; exact Vae|apply valid_wf; exact Vb'|exact RK|exact Mb'|exact N1|apply valid_wf; exact Vae|apply valid_wf; exact Vbe|exact RK|exact Me|exact N1]. }
  unfold embu. cbn [fst snd]. destruct (Z.eqb_spec (total b) 0) as [Z0|Z0].
  - assert (Fb : phonon_free b) by (apply valid_total_free; assumption). assert (Fbe : phonon_free (emb w n0 nt b)) by (apply (emb_free w n0 nt Inj Rng b _ Shb); exact Fb).
    assert (Z1 : total b' = 0) by (rewrite TE; apply valid_total_free; assumption). rewrite Z1. cbn [Z.eqb]. f_equal. apply Pu; [exact Vb|exact Vb'|exact Fb|apply valid_total_free; assumption].
  - assert (NFb : ~ phonon_free b) by (intros Fr; apply Z0; apply valid_total_free; assumption).
    assert (NFbe : ~ phonon_free (emb w n0 nt b)) by (intros Fr; apply NFb; apply (emb_free w n0 nt Inj Rng b _ Shb); exact Fr).
    assert (Z1 : total b' <> 0) by (rewrite TE; intros Z1; apply NFbe; apply valid_total_free; assumption).
    destruct (Z.eqb_spec (total b') 0) as [Z2|_]; [contradiction|].
    assert (NFb' : ~ phonon_free b') by (intros Fr; apply Z1; apply valid_total_free; assumption).
    destruct (modified_unique (em a) _ b' _ _ _ _ _ Vae Vbe Vb' NFbe NFb' Me Mb') as [Eb Es]. assert (s' = s) by congruence. subst b' s'. reflexivity.
Qed.

Lemma dead_zero : forall h l u a d L, In h dead -> ksum (map (summand e u l a d h) L) = k0.
Proof.
  intros h l u a d L Hh. rewrite Forall_forall in FD. apply ksum_zero. intros x _. unfold summand. rewrite (FD h Hh). ring.
Qed.

Lemma FL' : Forall2 (fun h0 h => same_op e w h0 h /\ In h0 ops0 /\ In h ops) ops0 live.
Proof. eapply Forall2_impl; [|apply (Forall2_both _ _ _ FL)]. intros h0 h [S1 [S2 S3]]. split; [exact S1|]. split; [exact S2|apply live_in; exact S3]. Qed.

Lemma emb_sum : forall u a l l0 d, proper u -> space m0 ae0 a -> (forall v, g0 e v l = g0 e v l0) ->
  ksum (map (fun h => ksum (map (summand e (embu u) l0 a d h) (st m0 ae0 a h))) ops0) =
  ksum (map (fun h => ksum (map (summand e u l (em a) d h) (st m ae (em a) h))) ops).
Proof.
  intros u a l l0 d Pu Sa EG. rewrite (ksum_perm _ _ (Permutation_map (fun h => ksum (map (summand e u l (em a) d h) (st m ae (em a) h))) P)).
  rewrite map_app, ksum_app. rewrite (ksum_zero _ dead).
  - transitivity (ksum (map (fun h => ksum (map (summand e u l (em a) d h) (st m ae (em a) h))) live)); [|ring]. symmetry. apply ksum_Forall2.
    eapply Forall2_impl; [|exact FL']. intros h0 h [SO [Hh0 Hh]].
    assert (PS : Permutation (st m ae (em a) h) (st m0 ae0 a h0)).
    { destruct (st_spec m0 ae0 G0' a h0 Sa Hh0) as [N1 I1]. destruct (st_spec m ae G (em a) h (emb_space a Sa) Hh) as [N2 I2].
      apply NoDup_Permutation; [exact N2|exact N1|]. intros x. rewrite I1, I2. apply emb_acts; assumption. }
    rewrite (ksum_perm _ _ (Permutation_map (summand e u l (em a) d h) PS)). apply ksum_ext. intros x Hx. symmetry. apply (st_spec m0 ae0 G0' a h0 Sa Hh0) in Hx.
    apply emb_summand; assumption.
  - intros h Hh. apply dead_zero. exact Hh.
Qed.

Lemma single_emb : forall t, (t < n0)%nat -> em (single_phonon n0 1 t) = single_phonon nt 1 (w t).
Proof.
  intros t Ht. assert (Sh : shp (single_phonon n0 1 t) = [n0; 1%nat]) by reflexivity.
  assert (Sh' : shp (single_phonon nt 1 (w t)) = [nt; 1%nat]) by reflexivity. pose proof (emb_shp w n0 nt _ _ Sh) as She.
  apply nd_ext; [apply wf_tab|apply valid_wf; apply single_phonon_valid; [apply Rng; exact Ht|lia]|unfold em; rewrite She, Sh'; reflexivity|].
  unfold em. rewrite She. intros i Hi. apply inr2 in Hi. destruct Hi as [j [x [-> [Hj Hx]]]]. assert (x = 0)%nat as -> by lia.
  assert (R : forall b, shp b = [nt; 1%nat] -> get b [j; 0%nat] = occ b j [0]).
  { intros b Hb. rewrite (occ2 nt 1 b Hb). rewrite (proj2 (Nat.ltb_lt _ _) Hj). reflexivity. }
  rewrite (R _ She), (R _ Sh'). rewrite single_phonon_occ by (try apply Rng; try exact Ht; reflexivity).
  destruct (live_or_dead w n0 nt Inj Rng j) as [[t' [Ht' <-]]|D].
  - rewrite (occ_emb w n0 nt Inj Rng _ _ Sh t' 0 Ht'). rewrite single_phonon_occ by (try exact Ht; reflexivity).
    replace (Nat.eqb (w t') (w t)) with (Nat.eqb t' t); [reflexivity|]. destruct (Nat.eqb_spec t' t) as [->|Ne]; [rewrite Nat.eqb_refl; reflexivity|].
    symmetry. apply Nat.eqb_neq. intros E. apply Ne. apply Inj; assumption.
  - rewrite (occ_emb_dead w n0 nt Inj Rng _ _ Sh j 0 D). replace (Nat.eqb j (w t)) with false; [reflexivity|]. symmetry. apply Nat.eqb_neq. intros ->. apply (D t Ht). reflexivity.
Qed.

Lemma emb_reached : forall a d, space m0 ae0 a -> reached m0 ae0 a d -> reached m ae (em a) d.
Proof.
  intros a d Sa [[h0 [Hh0 [D [Ea Ed]]]]|[b [h0 [x [s [Sb [Hh0 [A [M Ed]]]]]]]]]; destruct (Forall2_ex_l _ _ _ FL' h0 Hh0) as [h [_ [SO [_ Hh]]]]; pose proof SO as [_ [Ephi [Dg [I _]]]];
    pose proof (gm_index _ _ G0' h0 Hh0) as Hi.
  - left. exists h. split; [exact Hh|]. split; [congruence|]. split; [rewrite Ea, I; apply single_emb; exact Hi|]. unfold phi1 in *. rewrite Ephi. exact Ed.
  - right. exists (em b), h, x, s. split; [apply emb_space; exact Sb|]. split; [exact Hh|]. split; [apply (emb_acts b h0 h x Sb Hh0 Hh SO); exact A|].
    split; [|unfold phi1 in *; rewrite Ephi; exact Ed]. rewrite I. unfold sgn in *. rewrite Dg. apply (emb_modified w n0 nt Inj Rng b a _ _ _ _ _ _ (shape0 b Sb) (shape0 a Sa) Hi M).
Qed.

Lemma emb_green : forall u, ksum (map (gsummand e (embu u) n0) (filter creation ops0)) = ksum (map (gsummand e u nt) (filter creation ops)).
Proof.
  intros u. rewrite (ksum_perm _ _ (Permutation_map (gsummand e u nt) (perm_filter creation _ _ P))). rewrite filter_app, map_app, ksum_app.
  rewrite (ksum_zero _ (filter creation dead)).
  - transitivity (ksum (map (gsummand e u nt) (filter creation live))); [|ring]. symmetry. apply ksum_Forall2.
    assert (F3 : Forall2 (fun h0 h => same_op e w h0 h /\ In h0 ops0 /\ In h ops) (filter creation ops0) (filter creation live)).
    { apply (Forall2_filter _ creation creation); [|exact FL']. intros h0 h [[_ [_ [D _]]] _]. unfold creation. rewrite D. reflexivity. }
    eapply Forall2_impl; [|exact F3]. intros h0 h [[Epsi [Ephi [D [I C]]]] [Hh0 Hh]]. pose proof (gm_index _ _ G0' h0 Hh0) as Hi.
    unfold gsummand, embu. cbn [fst snd]. destruct (single_phonon_valid n0 1 (ht_index h0) Hi ltac:(lia)) as [Vs [NFs _]].
    destruct (Z.eqb_spec (total (single_phonon n0 1 (ht_index h0))) 0) as [Z0|_]; [exfalso; apply NFs, valid_total_free; assumption|].
    rewrite (single_emb _ Hi), I, C. unfold psi1, phi1. rewrite Epsi, Ephi. reflexivity.
  - intros h Hh. apply filter_In in Hh. rewrite Forall_forall in FD. unfold gsummand. rewrite (FD h (proj1 Hh)). ring.
Qed.

Lemma emb_vac : forall u, proper u -> embu u (vac m0, [0]) = u (vac m, [0]).
Proof.
  intros u Pu. destruct (vac_valid m) as [V [Tv _]]. destruct (vac_valid m0) as [V0 [Tv0 _]]. unfold embu. cbn [fst]. rewrite Tv0. cbn [Z.eqb].
  apply Pu; [exact V0|exact V|apply valid_total_free; assumption|apply valid_total_free; assumption].
Qed.

Lemma emb_conditions : forall u g, proper u -> conditions m ae e u g -> conditions m0 ae0 e (embu u) g.
Proof.
  intros u g Pu [C1 C2]. split.
  - intros a d l0 Sa R El0. pose proof (shape0 a Sa) as Sh. pose proof (emb_space a Sa) as Se. destruct (space_unfold m ae _ Se) as [_ [_ [_ [NT _]]]].
    destruct (energy_ex (h_freqs (m_ham m)) (em a)) as [l El]; [rewrite NT; apply (gm_freqs _ _ G)|].
    assert (EG : forall v, g0 e v l = g0 e v l0).
    { intros v. apply AD. apply (emb_present w n0 nt Inj Rng a _ Sh (h_freqs (m_ham m)) (h_freqs (m_ham m0))); [apply (po_freq _ _ _ _ PO)|exact El|exact El0]. }
    fold ops0. rewrite (emb_sum u a l l0 d Pu Sa EG). unfold embu at 1. cbn [fst snd]. destruct (space_unfold m0 ae0 a Sa) as [_ [_ [PT _]]].
    destruct (Z.eqb_spec (total a) 0) as [Z0|_]; [lia|]. apply (C1 (em a) d l Se (emb_reached a d Sa R) El).
  - fold ops0. fold n0. rewrite emb_green, (emb_vac u Pu). exact C2.
Qed.
End Part.

Lemma part_result : forall {T} {K : cring} (m m0 : model T) ae ae0 ord ord0 s s0 (e : env T K) w sp X v X0 v0,
  good_model m ae -> good_model m0 ae0 -> part_of e w m0 m -> additive e -> (forall a, space m0 ae a <-> space m0 ae0 a) ->
  (forall k l, Permutation (ord k l) l) -> (forall k l, Permutation (ord0 k l) l) ->
  prime_system ord m = Ok s -> prime_system ord0 m0 = Ok s0 ->
  scaffold e (full_basis s) s = Ok (X, v) -> scaffold e (full_basis s0) s0 = Ok (X0, v0) ->
  solves X v (sp X v) -> nonsingular X0 -> solves X0 v0 (sp X0 v0) -> sparse_solve e sp s = sparse_solve e sp s0.
Proof.
  intros T K m m0 ae ae0 ord ord0 s s0 e w sp X v X0 v0 G G0' PO AD AE P P0 Es Es0 E E0 SV NS0 SV0. pose proof (po_ops _ _ _ _ PO) as [live [dead [PL [FL FD]]]].
  symmetry. apply (same_result m m0 ae ae0 G G0' ord ord0 s s0 P P0 Es Es0 e e sp X v X0 v0 E E0 SV SV0 NS0).
  intros u Pu C. exists (embu m m0 w u). split; [apply embu_proper; exact Pu|]. split; [|apply emb_vac; exact Pu].
  eapply emb_conditions; eassumption.
Qed.
