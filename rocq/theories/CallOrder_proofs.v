(** The model made by a list of add_ calls in closed form, and other orders of the
    calls (C82). *)
From Coq Require Import String ZArith List Bool Lia Permutation Ring.
From Verif Require Import Base NdArray NdArray_proofs Config Spec Spec_ops Config_proofs
  Model HModel Space Spec_space Render Term Equation System Spec_engine
  Ring Coef Spec_eom Solvers Spec_solve Spec_model HModel_proofs Spec_sym Legal_proofs Hist_proofs Double_proofs Spec_calls.
Import ListNotations.
Open Scope list_scope.
Open Scope Z_scope.

Lemma Forall2_in_r : forall A B (R : A -> B -> Prop) l l', Forall2 R l l' -> forall y, In y l' -> exists x, In x l /\ R x y.
Proof. intros A B R l l' F. induction F as [|a b l l' H F IH]; intros y [].
  - subst y. exists a. split; [left; reflexivity|exact H].
  - destruct (IH y H0) as [x [Hx Rx]]. exists x. split; [right; exact Hx|exact Rx].
Qed.
Lemma Forall2_in_l : forall A B (R : A -> B -> Prop) l l', Forall2 R l l' -> forall x, In x l -> exists y, In y l' /\ R x y.
Proof. intros A B R l l' F. induction F as [|a b l l' H F IH]; intros y [].
  - subst y. exists b. split; [left; reflexivity|exact H].
  - destruct (IH y H0) as [x [Hx Rx]]. exists x. split; [right; exact Hx|exact Rx].
Qed.

Section Closed.
Context {T : Type}.
Variable N : numops T.
Variables (lat temp hop : T) (mps : option Z) (dim : nat).
Let hot := n_ltb N (n_0 N) temp.

(** A phonon type. *)
Record ent := mkEnt { n_ty : string; n_fr : T; n_M : Z; n_N : Z; n_c : T }.

Definition gval (ty : string) (f : T) (cs dcs : option T) : result T :=
  match cs, dcs with Some g, None => Ok g | None, Some lam => model_coupling_map N ty hop f lam | _, _ => Err ValueError end.
Definition terms_at (x : ent) (i : nat) : list (hterm T) := match get_terms N dim (n_ty x) (n_c x) i (n_fr x) with Some ts => ts | None => [] end.
Definition known (ty : string) : Prop := forall g i f, get_terms N dim ty g i f <> None.
Fixpoint terms (i : nat) (E : list ent) : list (hterm T) := match E with [] => [] | x :: r => terms_at x i ++ terms (S i) r end.

Lemma terms_app : forall E F i, terms i (E ++ F) = terms i E ++ terms (i + List.length E)%nat F.
Proof.
  induction E as [|x E IH]; intros F i; cbn [terms app List.length]; [rewrite Nat.add_0_r; reflexivity|]. rewrite IH, app_assoc. f_equal. f_equal. lia.
Qed.

Definition model_of (E : list ent) : model T := mkModel lat temp (mkHam (terms 0 E) (map n_fr E) dim hop) mps (map n_M E) (map n_N E) None (List.length E).

(** What a call adds. *)
Definition acc (a : add_args T) : Prop := acceptable N (model_of []) a.
Definition gives (a : add_args T) (es : list ent) : Prop :=
  a_override a = None /\ acc a /\ known (a_type a) /\ exists g, gval (a_type a) (a_freq a) (a_cs a) (a_dcs a) = Ok g /\
  let V := tfd_prefactors N temp (a_freq a) in
  if hot then exists g2 Mt Nt, gval (a_type a) (n_opp N (a_freq a)) (a_cs a) (a_dcs a) = Ok g2 /\ a_Mtfd a = Some Mt /\ a_Ntfd a = Some Nt /\
    es = [mkEnt (a_type a) (a_freq a) (a_M a) (a_N a) (n_mul N g (fst V)); mkEnt (a_type a) (n_opp N (a_freq a)) Mt Nt (n_mul N g2 (snd V))]
  else es = [mkEnt (a_type a) (a_freq a) (a_M a) (a_N a) (n_mul N g (fst V))].
Definition new_freqs (a : add_args T) : list T := if hot then [a_freq a; n_opp N (a_freq a)] else [a_freq a].

Lemma gives_freqs : forall a es, gives a es -> map n_fr es = new_freqs a.
Proof. intros a es [_ [_ [_ [g [_ H]]]]]. cbv zeta in H. unfold new_freqs. destruct hot; [destruct H as [g2 [Mt [Nt [_ [_ [_ ->]]]]]]|subst es]; reflexivity. Qed.

Lemma acc_any : forall a m, m_temp m = temp -> acceptable N m a <-> acc a.
Proof. intros a m Ht. unfold acc. split; intros [H1 H2 H3 H4 H5 H6 H7]; constructor; cbn [model_of m_temp] in *; rewrite ?Ht in *; assumption. Qed.

Lemma some_known : forall ty g i f ts, get_terms N dim ty g i f = Some ts -> known ty.
Proof.
  intros ty g i f ts H g' i' f'. unfold get_terms in *. destruct (String.eqb ty "Holstein"); [discriminate|]. destruct (String.eqb ty "EdwardsFermionBoson"); [discriminate|].
  destruct (String.eqb ty "BondPeierls"); [discriminate|]. destruct (String.eqb ty "Peierls"); discriminate.
Qed.

Lemma ham_ok : forall h ty idx f cs dcs V g M Nn, h_dim h = dim -> h_hop h = hop -> 0 <= idx -> gval ty f cs dcs = Ok g -> known ty -> (forall x, In x (h_freqs h) -> n_eqb N f x = false) ->
  ham_add N h ty idx f cs dcs V = Ok ([LDebug], mkHam (h_terms h ++ terms_at (mkEnt ty f M Nn (n_mul N g V)) (Z.to_nat idx)) (h_freqs h ++ [f]) dim hop).
Proof.
  intros h ty idx f cs dcs V g M Nn Hd Hh I Gv Kn Fr. unfold ham_add. cbv zeta. rewrite Hh, Hd. fold (gval ty f cs dcs). rewrite Gv. unfold terms_at. cbn [n_ty n_c n_fr].
  destruct (get_terms N dim ty (n_mul N g V) (Z.to_nat idx) f) as [ts|] eqn:Et; [|exfalso; exact (Kn _ _ _ Et)].
  unfold guard. rewrite (proj2 (Z.leb_le 0 idx) I). cbn [bind]. rewrite (fresh N _ _ Fr). reflexivity.
Qed.

Lemma ham_inv : forall h ty idx f cs dcs V l h1, h_dim h = dim -> h_hop h = hop -> ham_add N h ty idx f cs dcs V = Ok (l, h1) -> ~ In LError l ->
  (exists g, gval ty f cs dcs = Ok g) /\ known ty.
Proof.
  intros h ty idx f cs dcs V l h1 Hd Hh E L. destruct (ham_add_inv N h ty idx f cs dcs V l h1 E L) as [g [ts [Gv [Et _]]]]. rewrite Hd in Et. rewrite Hh in Gv.
  split; [|exact (some_known _ _ _ _ _ Et)]. exists g. unfold gval. destruct Gv as [[-> ->]|[-> [lam [-> G]]]]; [reflexivity|exact G].
Qed.

Lemma gives_add : forall E a es, gives a es -> distinct N (map n_fr (E ++ es)) -> exists logs, model_add N (model_of E) a = Ok (logs, model_of (E ++ es)) /\ ~ In LError logs.
Proof.
  intros E a es G D. pose proof (gives_freqs a es G) as F. rewrite map_app, F in D. destruct G as [Ov [A [Kn [g [Gv H]]]]]. cbv zeta in H.
  unfold model_add. cbv zeta. rewrite (add_passes N (model_of E) a (proj2 (acc_any a (model_of E) eq_refl) A)). cbn [m_temp model_of]. rewrite Ov. fold hot.
  destruct (tfd_prefactors N temp (a_freq a)) as [V Vt]. cbn [fst snd] in H.
  assert (W : forall b, ~ In LError (if b : bool then [LWarning] else [])) by (intros [|]; [intros [X|[]]; discriminate X|intros []]).
  unfold new_freqs in D. destruct hot.
  - destruct H as [g2 [Mt [Nt [Gv2 [EM [EN ->]]]]]]. change (map n_fr E ++ [a_freq a; n_opp N (a_freq a)]) with (map n_fr E ++ [a_freq a] ++ [n_opp N (a_freq a)]) in D. rewrite app_assoc in D.
    apply distinct_app in D. destruct D as [D F2]. apply distinct_app in D. destruct D as [_ F1].
    rewrite (ham_ok (m_ham (model_of E)) (a_type a) (Z.of_nat (m_ntypes (model_of E))) (a_freq a) (a_cs a) (a_dcs a) V g (a_M a) (a_N a) eq_refl eq_refl (Nat2Z.is_nonneg _) Gv Kn F1). cbn [bind m_ham model_of m_ntypes].
    match goal with |- context [ham_add N ?h _ ?i _ _ _ _] => rewrite (ham_ok h (a_type a) i (n_opp N (a_freq a)) (a_cs a) (a_dcs a) Vt g2 Mt Nt eq_refl eq_refl ltac:(cbn; lia) Gv2 Kn F2) end. cbn [bind]. rewrite EM, EN.
    cbn [m_lattice m_mps m_pe m_pn m_ntypes m_aext model_of h_terms h_freqs]. eexists. split; [f_equal; f_equal|].
    + unfold model_of. rewrite !map_app, terms_app, app_length. cbn [map n_fr n_M n_N terms app List.length]. rewrite app_nil_r, <- !app_assoc. cbn [app]. rewrite Nat2Z.id.
      replace (Z.to_nat (Z.of_nat (List.length E) + 1)) with (S (List.length E)) by lia. f_equal. lia.
    + rewrite !in_app_iff. intros [X|[[X|[]]|[X|[]]]]; [exact (W _ X)|discriminate X|discriminate X].
  - subst es. apply distinct_app in D. destruct D as [_ F1].
    rewrite (ham_ok (m_ham (model_of E)) (a_type a) (Z.of_nat (m_ntypes (model_of E))) (a_freq a) (a_cs a) (a_dcs a) V g (a_M a) (a_N a) eq_refl eq_refl (Nat2Z.is_nonneg _) Gv Kn F1). cbn [bind m_ham model_of m_ntypes m_lattice m_mps m_pe m_pn m_aext h_terms h_freqs].
    eexists. split; [f_equal; f_equal|].
    + unfold model_of. rewrite !map_app, terms_app, app_length. cbn [map n_fr n_M n_N terms app List.length]. rewrite app_nil_r, Nat2Z.id. f_equal. lia.
    + rewrite !in_app_iff. intros [X|[X|[]]]; [exact (W _ X)|discriminate X].
Qed.

Lemma add_gives : forall E a logs m1, model_add N (model_of E) a = Ok (logs, m1) -> ~ In LError logs -> a_override a = None -> distinct N (map n_fr E ++ new_freqs a) ->
  exists es, gives a es /\ m1 = model_of (E ++ es).
Proof.
  intros E a logs m1 Ea L Ov D. assert (X : exists es, gives a es).
  { destruct (acceptable_dec N (model_of E) a) as [A|A].
    2:{ rewrite (add_rejects N _ a A) in Ea. exfalso. apply L. assert (logs = [LError]) as -> by congruence. left. reflexivity. }
    unfold model_add in Ea. cbv zeta in Ea. rewrite (add_passes N _ a A) in Ea. cbn [m_temp model_of] in Ea. rewrite Ov in Ea. fold hot in Ea. unfold gives. cbv zeta.
    destruct (tfd_prefactors N temp (a_freq a)) as [V Vt]. cbn [fst snd].
    destruct (ham_add N (m_ham (model_of E)) (a_type a) (Z.of_nat (m_ntypes (model_of E))) (a_freq a) (a_cs a) (a_dcs a) V) as [[l1 h1]|] eqn:E1; [|discriminate]. cbn [bind] in Ea.
    apply (acc_any a (model_of E) eq_refl) in A. unfold new_freqs in D. destruct hot.
    - destruct (ham_add N h1 (a_type a) (Z.of_nat (m_ntypes (model_of E)) + 1) (n_opp N (a_freq a)) (a_cs a) (a_dcs a) Vt) as [[l2 h2]|] eqn:E2; [|discriminate]. cbn [bind] in Ea.
      destruct (a_Mtfd a) as [Mt|] eqn:EM; [|discriminate]. destruct (a_Ntfd a) as [Nt|] eqn:EN; [|discriminate].
      match type of Ea with Ok (?x, _) = _ => assert (EL : x = logs) by congruence end.
      assert (L1 : ~ In LError l1) by (intros H; apply L; rewrite <- EL, !in_app_iff; auto). assert (L2 : ~ In LError l2) by (intros H; apply L; rewrite <- EL, !in_app_iff; auto).
      destruct (ham_inv (m_ham (model_of E)) _ _ _ _ _ _ _ _ eq_refl eq_refl E1 L1) as [[g Gv] Kn].
      destruct (ham_add_inv N _ _ _ _ _ _ _ _ _ E1 L1) as [g0 [ts0 [_ [_ [_ [_ Eh]]]]]].
      destruct (ham_inv h1 _ _ _ _ _ _ _ _ ltac:(rewrite Eh; reflexivity) ltac:(rewrite Eh; reflexivity) E2 L2) as [[g2 Gv2] _].
      eexists. split; [exact Ov|]. split; [exact A|]. split; [exact Kn|]. exists g. split; [exact Gv|]. exists g2, Mt, Nt. auto.
    - match type of Ea with Ok (?x, _) = _ => assert (EL : x = logs) by congruence end. assert (L1 : ~ In LError l1) by (intros H; apply L; rewrite <- EL, !in_app_iff; auto).
      destruct (ham_inv (m_ham (model_of E)) _ _ _ _ _ _ _ _ eq_refl eq_refl E1 L1) as [[g Gv] Kn]. eexists. split; [exact Ov|]. split; [exact A|]. split; [exact Kn|]. exists g. split; [exact Gv|reflexivity]. }
  destruct X as [es G]. exists es. split; [exact G|]. rewrite <- (gives_freqs a es G), <- map_app in D. destruct (gives_add E a es G D) as [lg [Eb _]]. congruence.
Qed.

Lemma distinct_prefix : forall l l', distinct N (l ++ l') -> distinct N l.
Proof. unfold distinct. induction l as [|x r IH]; intros q H; cbn in *; [constructor|]. inversion H as [|? ? H1 H2]; subst. constructor; [apply Forall_app in H1; apply H1|apply (IH q H2)]. Qed.

Lemma calls_gives : forall l E m, accepts N (model_of E) l m -> (forall a, In a l -> a_override a = None) -> distinct N (map n_fr E ++ flat_map new_freqs l) ->
  exists Es, Forall2 gives l Es /\ m = model_of (E ++ concat Es).
Proof.
  induction l as [|a l IH]; intros E m A Ov D; cbn [accepts] in A.
  - subst m. exists []. split; [constructor|]. cbn [concat]. rewrite app_nil_r. reflexivity.
  - destruct A as [logs [m1 [Ea [L A]]]]. cbn [flat_map] in D. rewrite app_assoc in D.
    destruct (add_gives E a logs m1 Ea L (Ov a (or_introl eq_refl)) (distinct_prefix _ _ D)) as [es [G ->]].
    rewrite <- (gives_freqs a es G), <- map_app in D. destruct (IH (E ++ es) m A (fun b Hb => Ov b (or_intror Hb)) D) as [Es [F ->]].
    exists (es :: Es). split; [constructor; assumption|]. cbn [concat]. rewrite app_assoc. reflexivity.
Qed.
Lemma gives_calls : forall l Es E, Forall2 gives l Es -> distinct N (map n_fr (E ++ concat Es)) -> accepts N (model_of E) l (model_of (E ++ concat Es)).
Proof.
  intros l Es E F. revert E. induction F as [|a es l Es G F IH]; intros E D; cbn [concat] in *.
  - rewrite app_nil_r. reflexivity.
  - rewrite app_assoc in *. cbn [accepts]. destruct (gives_add E a es G) as [logs [Ea L]]; [rewrite map_app in D; exact (distinct_prefix _ _ D)|].
    exists logs, (model_of (E ++ es)). split; [exact Ea|]. split; [exact L|]. apply IH. exact D.
Qed.

Lemma gives_built : forall l Es E fs cs, Forall2 gives l Es -> distinct N (map n_fr (E ++ concat Es)) -> built N dim (model_of E) fs cs ->
  built N dim (model_of (E ++ concat Es)) (fs ++ flat_map new_freqs l) (cs ++ map a_type l).
Proof.
  intros l Es E fs cs F. revert E fs cs. induction F as [|a es l Es G F IH]; intros E fs cs D B; cbn [concat flat_map map] in *.
  - rewrite !app_nil_r. exact B.
  - rewrite app_assoc in D. destruct (gives_add E a es G) as [logs [Ea L]]; [rewrite map_app in D; exact (distinct_prefix _ _ D)|].
    pose proof (built_add N dim _ fs cs a logs _ B Ea L (proj1 G)) as B1. cbn [model_of m_temp] in B1. fold hot in B1. fold (new_freqs a) in B1.
    pose proof (IH (E ++ es) _ _ D B1) as X. rewrite <- !app_assoc in X. exact X.
Qed.

Lemma concat_freqs : forall l Es, Forall2 gives l Es -> map n_fr (concat Es) = flat_map new_freqs l.
Proof. intros l Es F. induction F as [|a es l Es G F IH]; [reflexivity|]. cbn [concat flat_map]. rewrite map_app, IH, (gives_freqs a es G). reflexivity. Qed.

Lemma distinct_perm : (forall x y, n_eqb N x y = n_eqb N y x) -> forall l l', Permutation l l' -> distinct N l -> distinct N l'.
Proof.
  intros Sy l l' P. unfold distinct. induction P as [|x l l' P IH|x y l|l l' l'' P1 I1 P2 I2]; intros D; [constructor| | |auto].
  - inversion D as [|? ? H1 H2]; subst. constructor; [|auto]. rewrite Forall_forall in *. intros z Hz. apply H1. apply (Permutation_in _ (Permutation_sym P) Hz).
  - inversion D as [|? ? H1 H2]; subst. inversion H2 as [|? ? H3 H4]; subst. inversion H1 as [|? ? H5 H6]; subst. constructor; [constructor; [rewrite Sy; exact H5|exact H3]|constructor; [exact H6|exact H4]].
Qed.
Lemma concat_perm : forall A (L L' : list (list A)), Permutation L L' -> Permutation (concat L) (concat L').
Proof.
  intros A L L' P. induction P as [|x l l' P IH|x y l|l l' l'' P1 I1 P2 I2]; cbn [concat]; [constructor| | |].
  - apply Permutation_app_head. exact IH.
  - rewrite !app_assoc. apply Permutation_app_tail, Permutation_app_comm.
  - exact (Permutation_trans I1 I2).
Qed.

(** The index of a type in the other order. *)
Section Part.
Context {K : cring}.
Variable e : env T K.
Hypothesis EO : forall x, ev e (n_opp N x) = kopp (ev e x).

Lemma terms_flat : forall E i, terms i E = flat_map (fun j => match nth_error E (j - i) with Some x => terms_at x j | None => [] end) (seq i (List.length E)).
Proof.
  induction E as [|x E IH]; intros i; [reflexivity|]. cbn [terms List.length seq flat_map]. rewrite Nat.sub_diag. cbn [nth_error]. f_equal. rewrite IH.
  rewrite !flat_map_concat_map. f_equal. apply map_ext_in. intros j Hj. apply in_seq in Hj. replace (j - i)%nat with (S (j - S i)) by lia. reflexivity.
Qed.

Lemma terms_same : forall (w : nat -> nat) x t, Forall2 (same_op e w) (terms_at x t) (terms_at x (w t)).
Proof.
  intros w x t. unfold terms_at. destruct (get_terms N dim (n_ty x) (n_c x) t (n_fr x)) as [ts|] eqn:E.
  - destruct (get_terms_shift N e EO dim (n_ty x) (n_c x) (n_c x) t (w t) (n_fr x) (n_fr x) ts eq_refl E) as [ts' [-> F]]. clear -F.
    induction F as [|h0 h l0 l [[S1 [S2 [S3 S4]]] [I1 I2]] _ IH]; constructor; [|exact IH]. unfold same_op. rewrite I1, I2. repeat split; congruence.
  - destruct (get_terms N dim (n_ty x) (n_c x) (w t) (n_fr x)) as [ts|] eqn:E'; [|constructor]. exfalso. exact (some_known _ _ _ _ _ E' _ _ _ E).
Qed.
Lemma terms_dead : forall x t, ev e (n_c x) = k0 -> Forall (fun h => ev e (ht_coupling h) = k0) (terms_at x t).
Proof.
  intros x t H. unfold terms_at. destruct (get_terms N dim (n_ty x) (n_c x) t (n_fr x)) as [ts|] eqn:E; [|constructor]. exact (get_terms_dead N e EO dim _ _ _ _ ts H E).
Qed.

Lemma flat_Forall2 : forall A B C' (R : B -> C' -> Prop) (f : A -> list B) (g : A -> list C') l, (forall x, In x l -> Forall2 R (f x) (g x)) -> Forall2 R (flat_map f l) (flat_map g l).
Proof. induction l as [|x l IH]; intros H; [constructor|]. cbn [flat_map]. apply Forall2_app; [apply H; left; reflexivity|apply IH; intros y Hy; apply H; right; exact Hy]. Qed.
Lemma flat_Forall : forall A B (P : B -> Prop) (f : A -> list B) l, (forall x, In x l -> Forall P (f x)) -> Forall P (flat_map f l).
Proof. induction l as [|x l IH]; intros H; [constructor|]. cbn [flat_map]. apply Forall_app. split; [apply H; left; reflexivity|apply IH; intros y Hy; apply H; right; exact Hy]. Qed.
Lemma flat_map_map : forall A B C' (f : B -> list C') (g : A -> B) l, flat_map f (map g l) = flat_map (fun x => f (g x)) l.
Proof. induction l as [|x l IH]; [reflexivity|]. cbn [map flat_map]. rewrite IH. reflexivity. Qed.

Lemma part : forall E D E', Permutation E' (E ++ D) -> (forall x, In x D -> ev e (n_c x) = k0) -> exists w, part_of e w (model_of E) (model_of E').
Proof.
  intros E D E' P Z0. pose proof P as P0. apply Permutation_nth_error in P. destruct P as [Ln [w [Inj Hw]]]. rewrite app_length in Ln. exists w.
  assert (Hin : forall t, (t < List.length E)%nat -> nth_error E t = nth_error E' (w t)) by (intros t Ht; rewrite <- Hw; symmetry; apply nth_error_app1; exact Ht).
  assert (Hr : forall t, (t < List.length E')%nat -> (w t < List.length E')%nat).
  { intros t Ht. apply nth_error_Some. rewrite <- Hw. apply nth_error_Some. rewrite app_length. lia. }
  constructor; cbn [model_of m_ntypes m_mps m_pe m_pn m_ham h_freqs h_terms].
  - intros t t' _ _ X. exact (Inj _ _ X).
  - intros t Ht. apply Hr. lia.
  - reflexivity.
  - intros t Ht. apply nth_of_error. rewrite !nth_error_map, (Hin t Ht). reflexivity.
  - intros t Ht. apply nth_of_error. rewrite !nth_error_map, (Hin t Ht). reflexivity.
  - intros t Ht. rewrite !nth_error_map, (Hin t Ht). reflexivity.
  - set (tm := fun j => match nth_error E' j with Some x => terms_at x j | None => [] end).
    assert (T' : terms 0 E' = flat_map tm (seq 0 (List.length E'))).
    { rewrite terms_flat, !flat_map_concat_map. f_equal. apply map_ext. intros j. rewrite Nat.sub_0_r. reflexivity. }
    exists (flat_map (fun t => tm (w t)) (seq 0 (List.length E))), (flat_map (fun t => tm (w t)) (seq (List.length E) (List.length D))). split; [|split].
    + pose proof (seq_app (List.length E) (List.length D) 0) as SA. cbn [Nat.add] in SA. rewrite T', <- flat_map_app, <- SA, <- Ln, <- (flat_map_map _ _ _ tm w). apply Permutation_flat_map. apply NoDup_Permutation_bis.
      * apply seq_NoDup.
      * rewrite map_length. lia.
      * assert (X : incl (map w (seq 0 (List.length E'))) (seq 0 (List.length E'))) by (intros j Hj; apply in_map_iff in Hj; destruct Hj as [t [<- Ht]]; apply in_seq in Ht; apply in_seq; split; [lia|apply Hr; lia]).
        apply NoDup_length_incl; [|rewrite map_length; lia|exact X]. apply FinFun.Injective_map_NoDup; [exact Inj|apply seq_NoDup].
    + rewrite terms_flat. apply flat_Forall2. intros t Ht. apply in_seq in Ht. rewrite Nat.sub_0_r. unfold tm. rewrite <- (Hin t) by lia.
      destruct (nth_error E t); [apply terms_same|constructor].
    + apply flat_Forall. intros t Ht. apply in_seq in Ht. unfold tm. rewrite <- Hw, nth_error_app2 by lia.
      destruct (nth_error D (t - List.length E)) as [x|] eqn:Ex; [|constructor]. apply terms_dead, Z0. exact (nth_error_In _ _ Ex).
Qed.
End Part.

(** The same extent. *)
Lemma extent_perm : forall E E' v, Permutation E' E -> absolute_extent (model_of E) = Some v -> absolute_extent (model_of E') = Some v.
Proof.
  intros E E' v P. unfold absolute_extent. cbn [model_of m_aext m_pe]. rewrite !lmaxZ_spec. intros [H1 H2]. pose proof (Permutation_map n_M P) as PM.
  split; [exact (Permutation_in _ (Permutation_sym PM) H1)|]. intros y Hy. apply H2. exact (Permutation_in _ PM Hy).
Qed.
Lemma extent_small : forall E D v, (forall x, In x D -> exists y, In y E /\ n_M x <= n_M y) -> absolute_extent (model_of (E ++ D)) = Some v -> absolute_extent (model_of E) = Some v.
Proof.
  intros E D v S. unfold absolute_extent. cbn [model_of m_aext m_pe]. rewrite !lmaxZ_spec, map_app. intros [H1 H2].
  assert (B : forall y, In y (map n_M E) -> y <= v) by (intros y Hy; apply H2, in_or_app; left; exact Hy). split; [|exact B].
  apply in_app_or in H1. destruct H1 as [H1|H1]; [exact H1|]. apply in_map_iff in H1. destruct H1 as [x [<- Hx]]. destruct (S x Hx) as [y [Hy L]].
  assert (n_M y <= n_M x) by (apply B, in_map; exact Hy). assert (n_M y = n_M x) as <- by lia. apply in_map. exact Hy.
Qed.

Lemma given : forall l, flat_map new_freqs l = given_freqs N temp l.
Proof. reflexivity. Qed.

Section Idle.
Context {K : cring}.
Variable e : env T K.
Hypothesis EO : forall x, ev e (n_opp N x) = kopp (ev e x).
Hypothesis Sy : forall x y, n_eqb N x y = n_eqb N y x.

Lemma idle_core : forall l idle l' m', Permutation l' (l ++ idle) -> (forall a, In a l' -> a_override a = None) -> distinct N (given_freqs N temp l') ->
  accepts N (from_parameters hop lat temp mps dim) l' m' -> (forall a, In a idle -> exists z, a_cs a = Some z /\ forall V, ev e (n_mul N z V) = k0) -> within l idle ->
  exists m, accepts N (from_parameters hop lat temp mps dim) l m /\ (exists w, part_of e w m m') /\ (forall v, absolute_extent m' = Some v -> absolute_extent m = Some v) /\
    built N dim m (given_freqs N temp l) (map a_type l) /\ built N dim m' (given_freqs N temp l') (map a_type l') /\ distinct N (given_freqs N temp l) /\
    (m_lattice m = lat /\ m_lattice m' = lat /\ h_hop (m_ham m) = hop /\ h_hop (m_ham m') = hop) /\ (m_mps m = mps /\ m_mps m' = mps /\ m_aext m = None /\ m_aext m' = None).
Proof.
  intros l idle l' m' P Ov D A Z0 Wi. change (from_parameters hop lat temp mps dim) with (model_of []) in *.
  destruct (calls_gives l' [] m' A Ov D) as [Es' [F' ->]]. cbn [app] in *. destruct (Permutation_Forall2 P F') as [Es0 [PE F0]].
  apply Forall2_app_inv_l in F0. destruct F0 as [Es [Ds [F [FD ->]]]]. pose proof (concat_perm _ _ _ PE) as PC. rewrite concat_app in PC.
  rewrite <- (given l'), <- (concat_freqs l' Es' F') in D |- *. pose proof (distinct_perm Sy _ _ (Permutation_map n_fr PC) D) as D0. rewrite map_app in D0. pose proof (distinct_prefix _ _ D0) as D1.
  exists (model_of (concat Es)). split; [exact (gives_calls l Es [] F D1)|]. split.
  { apply (part e EO (concat Es) (concat Ds) (concat Es') PC). intros x Hx. apply in_concat in Hx. destruct Hx as [es [He Hx]].
    destruct (Forall2_in_r _ _ _ _ _ FD es He) as [a [Ha [_ [_ [_ [g [Gv H]]]]]]]. destruct (Z0 a Ha) as [z [Ez Hz]]. cbv zeta in H. unfold gval in *. rewrite Ez in *.
    destruct (a_dcs a); [discriminate|]. injection Gv as <-. destruct hot.
    - destruct H as [g2 [Mt [Nt [Gv2 [_ [_ ->]]]]]]. injection Gv2 as <-. destruct Hx as [<-|[<-|[]]]; apply Hz.
    - subst es. destruct Hx as [<-|[]]; apply Hz. }
  split.
  { intros v Hv. apply (extent_small (concat Es) (concat Ds)); [|exact (extent_perm _ _ v (Permutation_sym PC) Hv)].
    intros x Hx. apply in_concat in Hx. destruct Hx as [es [He Hx]]. destruct (Forall2_in_r _ _ _ _ _ FD es He) as [a [Ha [_ [Ac [_ [g [_ H]]]]]]].
    destruct (Wi a Ha) as [a' [Ha' [W1 W2]]]. destruct (Forall2_in_l _ _ _ _ _ F a' Ha') as [es' [He' [_ [_ [_ [g' [_ H']]]]]]].
    assert (Y : exists y, In y es' /\ n_M y = a_M a').
    { cbv zeta in H'. destruct hot; [destruct H' as [g2 [Mt [Nt [_ [_ [_ ->]]]]]]|subst es']; eexists; (split; [left; reflexivity|reflexivity]). }
    destruct Y as [y [Hy Ey]]. exists y. split; [apply in_concat; exists es'; auto|]. rewrite Ey. cbv zeta in H. destruct hot.
    - destruct H as [g2 [Mt [Nt [_ [EM [_ ->]]]]]]. unfold other_M in W2. rewrite EM in W2. destruct Hx as [<-|[<-|[]]]; assumption.
    - subst es. destruct Hx as [<-|[]]; exact W1. }
  rewrite <- (given l), <- (concat_freqs l Es F).
  assert (B0 : built N dim (model_of []) [] []) by (change (model_of []) with (from_parameters hop lat temp mps dim); constructor).
  split; [pose proof (gives_built l Es [] [] [] F D1 B0) as B; cbn [app] in B; rewrite <- (concat_freqs l Es F) in B; exact B|].
  split; [pose proof (gives_built l' Es' [] [] [] F' D B0) as B; cbn [app] in B; rewrite <- (concat_freqs l' Es' F') in B; exact B|].
  split; [exact D1|]. repeat split; reflexivity.
Qed.
End Idle.
End Closed.
