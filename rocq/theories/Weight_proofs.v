(** Weights of clouds: the product of 1/n! over all occupation numbers, and the
    reversal of a step of the equations of motion (used by C51-C53). *)
From Coq Require Import String ZArith Reals List Bool Lia Lra Permutation.
From Verif Require Import Base NdArray NdArray_proofs Config Spec Spec_ops Config_proofs Modify_proofs Legal_proofs
  Model HModel Space Spec_space Space_proofs Count_proofs Render Render_proofs Term Equation System Spec_engine
  Term_proofs Equation_proofs System_proofs Prime_proofs Engine_proofs Ring Coef Spec_eom Solvers Spec_solve Spec_model Rows_proofs.
Import ListNotations.
Open Scope list_scope.
Open Scope Z_scope.

Definition site := (nat * Z)%type.
Definition site_dec : forall p q : site, {p = q} + {p <> q}.
Proof. decide equality; [apply Z.eq_dec|apply Nat.eq_dec]. Defined.

Definition oc (a : nd) (p : site) : Z := occ a (fst p) [snd p].
Definition inv_fact (n : Z) : R := (/ INR (fact (Z.to_nat n)))%R.
Definition wprod (f : site -> Z) (l : list site) : R := fold_right (fun p r => (inv_fact (f p) * r)%R) 1%R l.
Definition box (a : nd) : list site := flat_map (fun t => map (fun x => (t, Z.of_nat x)) (seq 0 (nth 1 (shp a) 0%nat))) (seq 0 (ntypes a)).
Definition weight (a : nd) : R := wprod (oc a) (box a).

Lemma inv_fact_pos : forall n, (0 < inv_fact n)%R.
Proof. intros n. apply Rinv_0_lt_compat. apply lt_0_INR. apply lt_O_fact. Qed.

Lemma inv_fact_0 : inv_fact 0 = 1%R.
Proof. unfold inv_fact. cbn. lra. Qed.

Lemma inv_fact_S : forall n, 0 <= n -> inv_fact n = (inv_fact (n + 1) * IZR (n + 1))%R.
Proof.
  intros n H. unfold inv_fact. replace (Z.to_nat (n + 1)) with (S (Z.to_nat n)) by lia. rewrite fact_simpl, mult_INR.
  replace (IZR (n + 1)) with (INR (S (Z.to_nat n))) by (rewrite INR_IZR_INZ; f_equal; lia).
  assert (INR (fact (Z.to_nat n)) <> 0%R) by (apply not_0_INR, fact_neq_0). assert (INR (S (Z.to_nat n)) <> 0%R) by (apply not_0_INR; discriminate).
  field. auto.
Qed.

Lemma wprod_pos : forall f l, (0 < wprod f l)%R.
Proof. induction l as [|p l IH]; cbn [wprod fold_right]; [lra|]. apply Rmult_lt_0_compat; [apply inv_fact_pos|exact IH]. Qed.

Lemma wprod_perm : forall f l l', Permutation l l' -> wprod f l = wprod f l'.
Proof.
  induction 1; cbn [wprod fold_right] in *; [reflexivity|unfold wprod in *; congruence| |unfold wprod in *; congruence]. lra.
Qed.

Lemma wprod_ext : forall f g l, (forall p, In p l -> f p = g p) -> wprod f l = wprod g l.
Proof. induction l as [|p l IH]; intros H; [reflexivity|]. cbn [wprod fold_right]. rewrite (H p (or_introl eq_refl)). f_equal. apply IH. intros; apply H; right; assumption. Qed.

Lemma wprod_map : forall f (s : site -> site) l, wprod f (map s l) = wprod (fun p => f (s p)) l.
Proof. induction l as [|p l IH]; [reflexivity|]. cbn [map wprod fold_right]. f_equal. exact IH. Qed.

Lemma wprod_filter : forall f l, wprod f l = wprod f (filter (fun p => negb (f p =? 0)) l).
Proof.
  induction l as [|p l IH]; [reflexivity|]. cbn [filter]. destruct (Z.eqb_spec (f p) 0) as [E|E]; cbn [negb wprod fold_right].
  - rewrite E, inv_fact_0. unfold wprod in *. lra.
  - f_equal. exact IH.
Qed.

(** Any duplicate-free list covering the occupied sites will do. *)
Lemma wprod_cover : forall f l l', NoDup l -> NoDup l' -> (forall p, f p <> 0 -> In p l) -> (forall p, f p <> 0 -> In p l') -> wprod f l = wprod f l'.
Proof.
  intros f l l' N N' C C'. rewrite (wprod_filter f l), (wprod_filter f l'). apply wprod_perm. apply NoDup_Permutation; try (apply NoDup_filter; assumption).
  intros p. rewrite !filter_In. destruct (Z.eqb_spec (f p) 0) as [E|E]; cbn [negb]; [intuition discriminate|]. split; intros _; auto.
Qed.

Lemma NoDup_box : forall a, NoDup (box a).
Proof.
  intros a. unfold box. apply NoDup_flat_map; [apply seq_NoDup| |].
  - intros t _. apply NoDup_map_inj; [|apply seq_NoDup]. intros x y _ _ E. assert (Z.of_nat x = Z.of_nat y) by congruence. lia.
  - intros t t' p _ _ H H'. apply in_map_iff in H, H'. destruct H as [x [<- _]], H' as [y [E _]]. congruence.
Qed.

Lemma In_box : forall a nt L p, shp a = [nt; L] -> oc a p <> 0 -> In p (box a).
Proof.
  intros a nt L [t x] Sh H. unfold oc, occ, at_ in H. cbn [fst snd] in H. rewrite Sh in H. cbn [inb] in H. unfold box, ntypes. rewrite Sh. cbn [hd nth].
  destruct (0 <=? x) eqn:E1; destruct (x <? Z.of_nat L) eqn:E2; destruct (Z.of_nat t <? Z.of_nat nt) eqn:E3; destruct (0 <=? Z.of_nat t) eqn:E4; cbn [andb] in H; try congruence.
  apply in_flat_map. exists t. split; [apply in_seq; lia|]. apply in_map_iff. exists (Z.to_nat x). split; [f_equal; lia|apply in_seq; lia].
Qed.

Lemma weight_pos : forall a, (0 < weight a)%R.
Proof. intros. apply wprod_pos. Qed.

Lemma weight_free : forall a, phonon_free a -> weight a = 1%R.
Proof.
  intros a F. unfold weight. rewrite wprod_filter. replace (filter _ (box a)) with (@nil site); [reflexivity|]. symmetry.
  induction (box a) as [|p l IH]; [reflexivity|]. cbn [filter]. unfold oc at 1. rewrite F. exact IH.
Qed.

(** Removing one of n phonons of a site multiplies the weight by n. *)
Lemma weight_step : forall a b nt L L' s t0 x0, shp a = [nt; L] -> shp b = [nt; L'] -> modified_by a b [s] t0 [x0] (-1) -> 0 < occ a t0 [x0] ->
  weight b = (weight a * IZR (occ a t0 [x0]))%R.
Proof.
  intros a b nt L L' s t0 x0 Sa Sb [_ [_ [_ M]]] P. assert (N1 : ndim a = 1%nat) by (unfold ndim; rewrite Sa; reflexivity). rewrite N1 in M.
  assert (M' : forall t x, occ b t [x] = occ a t [x + s] + (if site_dec (t, x + s) (t0, x0) then -1 else 0)).
  { intros t x. rewrite M by reflexivity. cbn [addv]. f_equal. cbn [eqlZ]. rewrite andb_true_r.
    destruct (site_dec (t, x + s) (t0, x0)) as [E|E].
    - injection E as -> ->. rewrite Nat.eqb_refl, Z.eqb_refl. reflexivity.
    - destruct (Nat.eqb_spec t t0), (Z.eqb_spec (x + s) x0); cbn [andb]; try reflexivity. subst. congruence. }
  assert (C0 : In (t0, x0) (box a)) by (apply (In_box a nt L); [exact Sa|unfold oc; cbn; lia]).
  unfold weight. rewrite (wprod_cover (oc b) (box b) (map (fun p => (fst p, snd p - s)) (box a))).
  - rewrite wprod_map. rewrite (wprod_ext _ (fun p => oc a p + if site_dec p (t0, x0) then -1 else 0)).
    + apply in_split in C0. destruct C0 as [l1 [l2 E]]. pose proof (NoDup_box a) as N. rewrite E in *.
      pose proof (Permutation_middle l1 l2 (t0, x0)) as PM. apply NoDup_remove_2 in N.
      rewrite <- !(wprod_perm _ _ _ PM). cbn [wprod fold_right]. fold (wprod (oc a) (l1 ++ l2)).
      fold (wprod (fun p => oc a p + (if site_dec p (t0, x0) then -1 else 0)) (l1 ++ l2)).
      rewrite (wprod_ext (fun p => oc a p + (if site_dec p (t0, x0) then -1 else 0)) (oc a)).
      * destruct (site_dec (t0, x0) (t0, x0)) as [_|X]; [|congruence]. change (oc a (t0, x0)) with (occ a t0 [x0]).
        rewrite (inv_fact_S (occ a t0 [x0] + -1)) by lia. replace (occ a t0 [x0] + -1 + 1) with (occ a t0 [x0]) by lia. lra.
      * intros p Hp. destruct (site_dec p (t0, x0)) as [->|_]; [contradiction|lia].
    + intros [t x] _. unfold oc. cbn [fst snd]. rewrite M'. replace (x - s + s) with x by lia. reflexivity.
  - apply NoDup_box.
  - apply NoDup_map_inj; [|apply NoDup_box]. intros [t x] [t' x'] _ _ E. cbn [fst snd] in E. assert (t = t') by congruence. assert (x - s = x' - s) by congruence. f_equal; [assumption|lia].
  - intros p. apply (In_box b nt L' p Sb).
  - intros [t x] H. unfold oc in H. cbn [fst snd] in H. rewrite M' in H. apply in_map_iff. exists (t, x + s). cbn [fst snd]. split; [f_equal; lia|].
    destruct (site_dec (t, x + s) (t0, x0)) as [E|E]; [rewrite E; exact C0|]. apply (In_box a nt L); [exact Sa|]. unfold oc. cbn [fst snd]. lia.
Qed.

Lemma reverse_modified : forall a b s t0 x0 e, ndim a = 1%nat -> modified_by a b [s] t0 [x0] e -> modified_by b a [- s] t0 [x0 - s] (- e).
Proof.
  intros a b s t0 x0 e N1 [M1 [M2 [M3 M4]]]. assert (N2 : ndim b = 1%nat) by (unfold ndim in *; lia).
  split; [congruence|]. split; [congruence|]. split; [rewrite N2; reflexivity|]. rewrite N2. intros t x Lx. destruct x as [|x [|]]; try discriminate.
  cbn [addv]. rewrite M4 by (rewrite N1; reflexivity). cbn [addv]. replace (x + - s + s) with x by lia. cbn [eqlZ].
  replace (x + - s =? x0 - s) with (x =? x0) by (destruct (Z.eqb_spec x x0), (Z.eqb_spec (x + - s) (x0 - s)); try reflexivity; lia).
  destruct (Nat.eqb t t0 && ((x =? x0) && true)); lia.
Qed.

(** * Reversal of a step *)
Definition adjoint_to {T} (h h' : hterm T) : Prop :=
  psi1 h' = - psi1 h /\ phi1 h' = phi1 h - psi1 h /\ ht_dag h' = flip (ht_dag h) /\ ht_index h' = ht_index h.

Lemma adjoint_sym : forall {T} (h h' : hterm T), adjoint_to h h' -> adjoint_to h' h.
Proof. intros T h h' [A [B [C D]]]. repeat split; [lia|lia|rewrite C; destruct (ht_dag h); reflexivity|congruence]. Qed.

Lemma adjoint_sgn : forall {T} (h h' : hterm T), adjoint_to h h' -> sgn h' = - sgn h.
Proof. intros T h h' [_ [_ [C _]]]. unfold sgn. rewrite C. destruct (ht_dag h); reflexivity. Qed.

Section Step.
Context {T : Type}.
Variable m : model T.
Variable ae : Z.
Hypothesis G : good_model m ae.
Let ops := h_terms (m_ham m).

Lemma space_shp : forall a, space m ae a -> exists L, shp a = [m_ntypes m; L].
Proof. intros a Sa. destruct (space_unfold m ae a Sa) as [_ [_ [_ [_ [_ [[L [Sh _]] _]]]]]]. eauto. Qed.

Lemma step_back : forall a h h' x, space m ae a -> In h ops -> In h' ops -> adjoint_to h h' -> acts_at m ae a h [x] ->
  0 < total (fst (next a h x)) ->
  space m ae (fst (next a h x)) /\ acts_at m ae (fst (next a h x)) h' [x - snd (next a h x)] /\
  next (fst (next a h x)) h' (x - snd (next a h x)) = (a, - snd (next a h x)) /\
  (weight (fst (next a h x)) * IZR (multi (fst (next a h x)) h' (x - snd (next a h x))) = weight a * IZR (multi a h x))%R.
Proof.
  intros a h h' x Sa Hh Hh' A Hx TP. destruct (next_spec m ae G a h x Sa Hh Hx) as [Vb [M [Tb Sb]]].
  destruct (next a h x) as [b s] eqn:E. cbn [fst snd] in *.
  assert (NFb : ~ phonon_free b) by (apply pos_not_free; assumption). destruct Sb as [F|Sb]; [contradiction|].
  destruct (space_unfold m ae a Sa) as [Va [NFa [Pa [_ [N1 _]]]]]. destruct (space_shp a Sa) as [L Sha]. destruct (space_shp b Sb) as [L' Shb].
  pose proof (reverse_modified a b s (ht_index h) x (sgn h) N1 M) as M'.
  destruct A as [A1 [A2 [A3 A4]]].
  assert (Hx' : acts_at m ae b h' [x - s]).
  { split; [reflexivity|]. rewrite A3, A4. destruct (ht_dag h) eqn:D; cbn [flip].
    - destruct M as [_ [_ [_ M]]]. rewrite M by (rewrite N1; reflexivity). cbn [addv eqlZ]. replace (x - s + s) with x by lia. rewrite Nat.eqb_refl, Z.eqb_refl. cbn [andb].
      unfold sgn. rewrite D. destruct Va as [_ [_ [NN _]]]. pose proof (NN (ht_index h) [x]). lia.
    - exists a, [- s]. split; [exact Va|]. split; [|exact Sa]. unfold sgn in M'. rewrite D in M'. exact M'. }
  split; [exact Sb|]. split; [exact Hx'|].
  destruct (next_spec m ae G b h' (x - s) Sb Hh' Hx') as [Vn [Mn [Tn _]]].
  assert (S' : sgn h' = - sgn h) by (unfold sgn; rewrite A3; destruct (ht_dag h); reflexivity).
  destruct (next b h' (x - s)) as [a' s'] eqn:E'. cbn [fst snd] in *. rewrite S', A4 in *.
  assert (NFa' : ~ phonon_free a') by (apply pos_not_free; [exact Vn|lia]).
  destruct (space_unfold m ae b Sb) as [Vb' _].
  destruct (modified_unique b a' a _ _ _ _ _ Vb Vn Va NFa' NFa Mn M') as [Ea Es]. split; [congruence|].
  unfold multi. rewrite A3, A4. unfold sgn in M, M'. destruct (ht_dag h) eqn:D; cbn [flip].
  - change (- (1)) with (-1) in M'. destruct Hx' as [_ Hx']. rewrite A3, A4 in Hx'. cbn [flip] in Hx'.
    rewrite (weight_step b a _ _ _ (- s) (ht_index h) (x - s) Shb Sha M' Hx'). lra.
  - destruct Hx as [_ Hx]. rewrite D in Hx. rewrite (weight_step a b _ _ _ s (ht_index h) x Sha Shb M Hx). lra.
Qed.

(** A step to the vacuum removes the phonon of a one-phonon cloud. *)
Lemma step_vacuum : forall a h x, space m ae a -> In h ops -> acts_at m ae a h [x] -> total (fst (next a h x)) = 0 ->
  ht_dag h = Minus /\ a = single_phonon (m_ntypes m) 1 (ht_index h) /\ x = 0 /\ multi a h x = 1 /\ weight a = 1%R.
Proof.
  intros a h x Sa Hh Hx T0. destruct (next_spec m ae G a h x Sa Hh Hx) as [Vb [M [Tb _]]].
  destruct (space_unfold m ae a Sa) as [Va [NFa [Pa [NT [N1 _]]]]].
  assert (D : ht_dag h = Minus) by (unfold sgn in Tb; destruct (ht_dag h); [lia|reflexivity]).
  set (b := fst (next a h x)) in *. set (s := snd (next a h x)) in *. assert (F : phonon_free b) by (apply valid_total_free; assumption).
  pose proof (gm_index _ _ G h Hh) as Hi.
  assert (O : forall t y, occ a t [y] = if Nat.eqb t (ht_index h) && (y =? x) then 1 else 0).
  { intros t y. pose proof M as [_ [_ [_ M4]]]. specialize (M4 t [y - s] ltac:(rewrite N1; reflexivity)). rewrite F in M4. cbn [addv eqlZ] in M4.
    replace (y - s + s) with y in M4 by lia. rewrite andb_true_r in M4. unfold sgn in M4. rewrite D in M4. destruct (Nat.eqb t (ht_index h) && (y =? x)); lia. }
  destruct (vac_valid m) as [Vv [Tv Nv]]. assert (Fv : phonon_free (vac m)) by (apply valid_total_free; assumption).
  destruct (single_phonon_valid (m_ntypes m) 1 (ht_index h) Hi ltac:(lia)) as [V1 [NF1 [D1 D2]]].
  assert (Shl : List.length (shp a) = 2%nat) by (destruct (space_shp a Sa) as [L E]; rewrite E; reflexivity).
  assert (MA : modified_by (vac m) a [- x] (ht_index h) [0] 1).
  { split; [rewrite Shl; reflexivity|]. split; [rewrite NT; reflexivity|]. split; [rewrite Nv; reflexivity|]. rewrite Nv. intros t y Ly.
    destruct y as [|y [|]]; try discriminate. rewrite Fv, O. cbn [addv eqlZ]. rewrite andb_true_r.
    replace (y + - x =? 0) with (y =? x) by (destruct (Z.eqb_spec y x), (Z.eqb_spec (y + - x) 0); try reflexivity; lia). reflexivity. }
  assert (MS : modified_by (vac m) (single_phonon (m_ntypes m) 1 (ht_index h)) [0] (ht_index h) [0] 1).
  { split; [unfold single_phonon; reflexivity|]. split; [rewrite D2; reflexivity|]. split; [rewrite Nv; reflexivity|]. rewrite Nv. intros t y Ly.
    rewrite (single_phonon_occ (m_ntypes m) 1 (ht_index h) t y Hi Ly). rewrite Fv. destruct y as [|y [|]]; try discriminate. cbn [addv eqlZ zerov repeat].
    rewrite Z.add_0_r. reflexivity. }
  destruct (modified_unique (vac m) _ a _ _ _ _ _ Vv V1 Va NF1 NFa MS MA) as [Ea Ex].
  assert (X0 : x = 0) by (assert (- x = 0) by congruence; lia).
  assert (M1 : occ a (ht_index h) [x] = 1) by (rewrite O, Nat.eqb_refl, Z.eqb_refl; reflexivity).
  split; [exact D|]. split; [exact Ea|]. split; [exact X0|]. split; [unfold multi; rewrite D; exact M1|].
  destruct (space_shp a Sa) as [L Sha]. unfold sgn in M. rewrite D in M.
  assert (Shb : exists L', shp b = [m_ntypes m; L']).
  { destruct M as [Q1 [Q2 _]]. rewrite Shl in Q1. unfold ntypes in *. destruct (shp b) as [|n0 [|n1 [|]]]; try discriminate. cbn [hd] in Q2. exists n1. congruence. }
  destruct Shb as [L' Shb].
  pose proof (weight_step a b _ _ _ s (ht_index h) x Sha Shb M ltac:(lia)) as WS. rewrite (weight_free b F), M1 in WS. lra.
Qed.

Lemma single_step : forall h, In h ops -> ht_dag h = Minus ->
  acts_at m ae (single_phonon (m_ntypes m) 1 (ht_index h)) h [0] /\ total (fst (next (single_phonon (m_ntypes m) 1 (ht_index h)) h 0)) = 0.
Proof.
  intros h Hh D. pose proof (gm_index _ _ G h Hh) as Hi. destruct (single_in_space m ae G _ Hi) as [S1 T1].
  assert (A : acts_at m ae (single_phonon (m_ntypes m) 1 (ht_index h)) h [0]).
  { split; [reflexivity|]. rewrite D. rewrite single_phonon_occ by (try assumption; reflexivity). rewrite Nat.eqb_refl. cbn. lia. }
  split; [exact A|]. destruct (next_spec m ae G _ h 0 S1 Hh A) as [_ [_ [Tn _]]]. unfold sgn in Tn. rewrite D in Tn. lia.
Qed.
End Step.
