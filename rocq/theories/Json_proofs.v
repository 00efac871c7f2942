(** Lemmas on reloaded models: later changes, and which models can be stored. *)
From Coq Require Import String ZArith List Bool Lia.
From Verif Require Import Base Model HModel Spec_model Checkpoint Spec_checkpoint Checkpoint_proofs.
Import ListNotations.
Open Scope list_scope.
Open Scope Z_scope.

Section Later.
Context {T : Type}.
Variable N : numops T.

Definition with_ae (m : model T) (x : option Z) : model T :=
  mkModel (m_lattice m) (m_temp m) (m_ham m) (m_mps m) (m_pe m) (m_pn m) x (m_ntypes m).

Lemma pin_with : forall m, pin m = with_ae m (absolute_extent m).
Proof. reflexivity. Qed.

Lemma add_with : forall m x a, model_add N (with_ae m x) a = match model_add N m a with Ok (l, m1) => Ok (l, with_ae m1 x) | Err e => Err e end.
Proof.
  intros m x a. unfold model_add, with_ae. cbn [m_lattice m_temp m_ham m_mps m_pe m_pn m_aext m_ntypes].
  repeat match goal with |- (if ?b then _ else _) = _ => destruct b; [reflexivity|] end.
  destruct (tfd_prefactors N (m_temp m) (a_freq a)) as [V Vt].
  destruct (ham_add N (m_ham m) (a_type a) _ (a_freq a) (a_cs a) (a_dcs a) V) as [[l1 h1]|e]; [|reflexivity]. cbn [bind].
  destruct (n_ltb N (n_0 N) (m_temp m)); [|reflexivity].
  destruct (ham_add N h1 (a_type a) _ (n_opp N (a_freq a)) (a_cs a) (a_dcs a) Vt) as [[l2 h2]|e]; [|reflexivity]. cbn [bind].
  destruct (a_Mtfd a); [|reflexivity]. destruct (a_Ntfd a); reflexivity.
Qed.

Lemma add_aext : forall m a l m1, model_add N m a = Ok (l, m1) -> m_aext m1 = m_aext m /\ exists r, m_pe m1 = m_pe m ++ r.
Proof.
  intros m a l m1. unfold model_add.
  repeat match goal with |- (if ?b then _ else _) = _ -> _ => destruct b; [intros E; injection E as <- <-; split; [reflexivity|exists []; rewrite app_nil_r; reflexivity]|] end.
  destruct (tfd_prefactors N (m_temp m) (a_freq a)) as [V Vt].
  destruct (ham_add N (m_ham m) (a_type a) _ (a_freq a) (a_cs a) (a_dcs a) V) as [[l1 h1]|e]; [|discriminate]. cbn [bind].
  destruct (n_ltb N (n_0 N) (m_temp m)).
  - destruct (ham_add N h1 (a_type a) _ (n_opp N (a_freq a)) (a_cs a) (a_dcs a) Vt) as [[l2 h2]|e]; [|discriminate]. cbn [bind].
    destruct (a_Mtfd a); [|discriminate]. destruct (a_Ntfd a); [|discriminate]. intros E. injection E as <- <-. cbn [m_aext m_pe]. split; [reflexivity|]. rewrite <- app_assoc. eauto.
  - intros E. injection E as <- <-. cbn [m_aext m_pe]. eauto.
Qed.

(** One change on a model with no explicit extent and on its reloaded copy. *)
Lemma change_with : forall m e c, m_aext m = None ->
  (exists x, apply_change N m c = Err x /\ apply_change N (with_ae m (Some e)) c = Err x) \/
  exists l m1, apply_change N m c = Ok (l, m1) /\ (exists r, m_pe m1 = m_pe m ++ r) /\
    (apply_change N (with_ae m (Some e)) c = Ok (l, m1) \/ m_aext m1 = None /\ apply_change N (with_ae m (Some e)) c = Ok (l, with_ae m1 (Some e))).
Proof.
  intros m e c A. assert (NIL : exists r, m_pe m = m_pe m ++ r) by (exists []; rewrite app_nil_r; reflexivity). destruct c as [a|x|x|x|x]; cbn [apply_change].
  - rewrite add_with. destruct (model_add N m a) as [[l m1]|y] eqn:E; [|left; exists y; auto]. destruct (add_aext m a l m1 E) as [E1 E2].
    right. exists l, m1. split; [reflexivity|]. split; [exact E2|]. right. split; [congruence|reflexivity].
  - right. unfold set_temperature, with_ae. cbn [m_lattice m_temp m_ham m_mps m_pe m_pn m_aext m_ntypes].
    destruct x as [v|]; [destruct (n_ltb N v (n_0 N))|]; do 2 eexists; (split; [reflexivity|]); cbn [m_pe]; (split; [exact NIL|]); right; (split; [exact A|reflexivity]).
  - right. unfold set_lattice, with_ae. cbn [m_lattice m_temp m_ham m_mps m_pe m_pn m_aext m_ntypes].
    destruct x as [v|]; [destruct (n_ltb N v (n_0 N) || n_eqb N v (n_0 N))|]; do 2 eexists; (split; [reflexivity|]); cbn [m_pe]; (split; [exact NIL|]); right; (split; [exact A|reflexivity]).
  - right. unfold set_absolute_extent, with_ae. cbn [m_lattice m_temp m_ham m_mps m_pe m_pn m_aext m_ntypes].
    destruct (Nat.ltb 1 (List.length (m_pe m))); do 2 eexists; (split; [reflexivity|]); cbn [m_pe]; (split; [exact NIL|]); [right; split; [exact A|reflexivity]|left; reflexivity].
  - right. unfold set_max_per_site, with_ae. cbn [m_lattice m_temp m_ham m_mps m_pe m_pn m_aext m_ntypes].
    do 2 eexists; (split; [reflexivity|]); cbn [m_pe]; (split; [exact NIL|]); right; (split; [exact A|reflexivity]).
Qed.

Lemma changes_with : forall cs m e, m_aext m = None ->
  (exists x, apply_changes N m cs = Err x /\ apply_changes N (with_ae m (Some e)) cs = Err x) \/
  exists l m1, apply_changes N m cs = Ok (l, m1) /\
    (apply_changes N (with_ae m (Some e)) cs = Ok (l, m1) \/
     (m_aext m1 = None /\ (exists r, m_pe m1 = m_pe m ++ r) /\ apply_changes N (with_ae m (Some e)) cs = Ok (l, with_ae m1 (Some e)))).
Proof.
  induction cs as [|c cs IH]; intros m e A; cbn [apply_changes].
  - right. exists [], m. split; [reflexivity|]. right. split; [exact A|]. split; [exists []; rewrite app_nil_r; reflexivity|reflexivity].
  - destruct (change_with m e c A) as [[x [E1 E2]]|[l [m1 [E1 [[r R] H]]]]].
    + left. exists x. rewrite E1, E2. auto.
    + rewrite E1. cbn [bind]. destruct H as [E2|[A1 E2]]; rewrite E2; cbn [bind].
      * destruct (apply_changes N m1 cs) as [[l' m2]|x]; cbn [bind]; [|left; exists x; auto]. right. do 2 eexists. split; [reflexivity|]. left. reflexivity.
      * destruct (IH m1 e A1) as [[x [F1 F2]]|[l' [m2 [F1 F2]]]].
        -- left. exists x. rewrite F1, F2. auto.
        -- right. rewrite F1. cbn [bind]. do 2 eexists. split; [reflexivity|]. destruct F2 as [F2|[A2 [[r' R'] F2]]]; rewrite F2; cbn [bind].
           ++ left. reflexivity.
           ++ right. split; [exact A2|]. split; [|reflexivity]. rewrite R', R, <- app_assoc. eauto.
Qed.

Lemma pin_explicit : forall m : model T, m_aext m <> None \/ m_pe m = [] -> pin m = m.
Proof.
  intros [a t h mps pe pn ae n] H. unfold pin, absolute_extent. cbn [m_lattice m_temp m_ham m_mps m_pe m_pn m_aext m_ntypes] in *. destruct ae; [reflexivity|].
  destruct H as [H| ->]; [congruence|reflexivity].
Qed.

Lemma lmaxZ_some : forall l x, exists e, lmaxZ (x :: l) = Some e.
Proof. intros. eexists. reflexivity. Qed.
Lemma fold_max_le : forall l x e, fold_left Z.max l x = e -> x <= e /\ forall y, In y l -> y <= e.
Proof.
  induction l as [|y l IH]; intros x e E; cbn [fold_left] in E; [split; [lia|intros y []]|]. destruct (IH _ _ E) as [A B]. split; [lia|]. intros z [<-|Z]; [lia|auto].
Qed.
Lemma fold_max_app : forall l r x e, fold_left Z.max l x = e -> (forall y, In y r -> y <= e) -> fold_left Z.max (l ++ r) x = e.
Proof.
  intros l r x e E H. rewrite fold_left_app, E. clear E l x. induction r as [|y r IH]; [reflexivity|]. cbn [fold_left]. rewrite Z.max_l by (apply H; left; reflexivity). apply IH. intros z Z. apply H. right. exact Z.
Qed.
Lemma lmaxZ_app : forall l r e, lmaxZ l = Some e -> (lmaxZ (l ++ r) = Some e <-> forall y, In y (l ++ r) -> y <= e).
Proof.
  intros [|x l] r e E; [discriminate|]. cbn [lmaxZ app] in *. injection E as E. split.
  - intros H. injection H as H. destruct (fold_max_le _ _ _ H) as [A B]. intros y [<-|Y]; auto.
  - intros H. f_equal. apply fold_max_app; [exact E|]. intros y Y. apply H. right. apply in_or_app. right. exact Y.
Qed.
End Later.

Section Stored.
Context {T : Type}.
Variable N : numops T.

Lemma ivec_ok : forall l, vec_ok (ivec l).
Proof. intros l _. unfold ivec. cbn [v2]. apply Forall_forall. intros x X. apply in_map_iff in X. destruct X as [y [<- _]]. exists y. reflexivity. Qed.

Lemma get_terms_ok : forall dim c g i f ts, get_terms N dim c g i f = Some ts -> forall h, In h ts -> vec_ok (ht_psi h) /\ vec_ok (ht_phi h).
Proof.
  intros dim c g i f ts. unfold get_terms.
  assert (HF : vec_ok half) by (intros X; discriminate X). assert (MF : vec_ok mhalf) by (intros X; discriminate X).
  repeat match goal with |- (if ?b then _ else _) = _ -> _ => destruct b; [intros E; injection E as <-; intros h H; cbn [In] in H;
    repeat (destruct H as [<-|H]; [cbn [ht_psi ht_phi]; split; auto using ivec_ok|]); destruct H|] end. discriminate.
Qed.

Lemma ham_add_ok : forall h c i f cs dcs mu l h', ham_add N h c i f cs dcs mu = Ok (l, h') ->
  (forall x, In x (h_terms h) -> vec_ok (ht_psi x) /\ vec_ok (ht_phi x)) -> forall x, In x (h_terms h') -> vec_ok (ht_psi x) /\ vec_ok (ht_phi x).
Proof.
  intros h c i f cs dcs mu l h'. unfold ham_add. set (g := match cs with Some _ => _ | None => _ end). clearbody g.
  destruct g as [g|x].
  2:{ intros E S. destruct x; try discriminate E. injection E as <- <-. exact S. }
  destruct (get_terms N (h_dim h) c (n_mul N g mu) (Z.to_nat i) f) as [ts|] eqn:ET; [|intros E; injection E as <- <-; auto].
  destruct (0 <=? i); cbn [guard bind]; [|discriminate]. intros E. injection E as <- <-. cbn [h_terms]. intros S x X. apply in_app_or in X. destruct X as [X|X]; [auto|].
  exact (get_terms_ok _ _ _ _ _ _ ET x X).
Qed.

Lemma add_ok : forall m a l m1, model_add N m a = Ok (l, m1) -> storable m -> storable m1.
Proof.
  intros m a l m1. unfold model_add.
  repeat match goal with |- (if ?b then _ else _) = _ -> _ => destruct b; [intros E; injection E as <- <-; auto|] end.
  destruct (tfd_prefactors N (m_temp m) (a_freq a)) as [V Vt].
  destruct (ham_add N (m_ham m) (a_type a) _ (a_freq a) (a_cs a) (a_dcs a) V) as [[l1 h1]|e] eqn:E1; [|discriminate]. cbn [bind].
  destruct (n_ltb N (n_0 N) (m_temp m)).
  - destruct (ham_add N h1 (a_type a) _ (n_opp N (a_freq a)) (a_cs a) (a_dcs a) Vt) as [[l2 h2]|e] eqn:E2; [|discriminate]. cbn [bind].
    destruct (a_Mtfd a); [|discriminate]. destruct (a_Ntfd a); [|discriminate]. intros E S. injection E as <- <-. unfold storable. cbn [m_ham].
    eapply ham_add_ok; [exact E2|]. eapply ham_add_ok; [exact E1|exact S].
  - intros E S. injection E as <- <-. unfold storable. cbn [m_ham]. eapply ham_add_ok; [exact E1|exact S].
Qed.

Lemma change_ok : forall m c l m1, apply_change N m c = Ok (l, m1) -> storable m -> storable m1.
Proof.
  intros m [a|x|x|x|x] l m1; cbn [apply_change].
  - apply add_ok.
  - unfold set_temperature. destruct x as [v|]; [destruct (n_ltb N v (n_0 N))|]; intros E; injection E as <- <-; auto.
  - unfold set_lattice. destruct x as [v|]; [destruct (n_ltb N v (n_0 N) || n_eqb N v (n_0 N))|]; intros E; injection E as <- <-; auto.
  - unfold set_absolute_extent. destruct (Nat.ltb 1 (List.length (m_pe m))); intros E; injection E as <- <-; auto.
  - intros E. injection E as <- <-. auto.
Qed.
Lemma changes_ok : forall cs m l m1, apply_changes N m cs = Ok (l, m1) -> storable m -> storable m1.
Proof.
  induction cs as [|c cs IH]; intros m l m1 E S; cbn [apply_changes] in E; [injection E as <- <-; exact S|].
  destruct (apply_change N m c) as [[l1 m2]|] eqn:E1; [|discriminate]. cbn [bind] in E. destruct (apply_changes N m2 cs) as [[l2 m3]|] eqn:E2; [|discriminate]. cbn [bind] in E.
  injection E as <- <-. apply (IH _ _ _ E2). apply (change_ok _ _ _ _ E1 S).
Qed.
Lemma start_ok : forall hop lat temp mps dim, storable (from_parameters (T := T) hop lat temp mps dim).
Proof. intros hop lat temp mps dim h []. Qed.
End Stored.
