(** The iteration order of Python sets only permutes equations. *)
From Coq Require Import String ZArith List Bool Lia Permutation.
From Verif Require Import Base NdArray Config Model Space Render Term Equation System System_proofs.
Import ListNotations.
Open Scope list_scope.
Open Scope Z_scope.

Lemma mapM_perm : forall {A B} (f : A -> result B) l l', Permutation l l' -> forall ys, mapM f l = Ok ys ->
  exists ys', mapM f l' = Ok ys' /\ Permutation ys ys'.
Proof.
  intros A B f l l' P. induction P; intros ys H.
  - exists ys. split; [exact H|apply Permutation_refl].
  - simpl in *. destruct (f x) as [y|]; [|discriminate]. simpl in *. destruct (mapM f l) as [r|] eqn:E; [|discriminate].
    simpl in H. injection H as <-. destruct (IHP r eq_refl) as [r' [E' P']]. rewrite E'. simpl.
    eexists. split; [reflexivity|]. constructor. exact P'.
  - simpl in *. destruct (f y) as [y1|]; [|discriminate]. simpl in *. destruct (f x) as [x1|]; [|discriminate]. simpl in *.
    destruct (mapM f l) as [r|]; [|discriminate]. simpl in *. injection H as <-. eexists. split; [reflexivity|]. constructor.
  - destruct (IHP1 ys H) as [y1 [E1 P1']]. destruct (IHP2 y1 E1) as [y2 [E2 P2']]. exists y2. split; [exact E2|].
    apply Permutation_trans with y1; assumption.
Qed.

Lemma mapM_rel : forall {A B B'} (f : A -> result B) (f' : A -> result B') (R : B -> B' -> Prop) l,
  (forall x y, In x l -> f x = Ok y -> exists y', f' x = Ok y' /\ R y y') ->
  forall ys, mapM f l = Ok ys -> exists ys', mapM f' l = Ok ys' /\ Forall2 R ys ys'.
Proof.
  induction l as [|x r IH]; intros H ys E; simpl in *.
  - injection E as <-. exists []. split; [reflexivity|constructor].
  - destruct (f x) as [y|] eqn:Ex; [|discriminate]. simpl in E. destruct (mapM f r) as [r1|]; [|discriminate].
    simpl in E. injection E as <-. destruct (H x y (or_introl eq_refl) Ex) as [y' [Ey' Ry]].
    destruct (IH ltac:(intros; eapply H; eauto) r1 eq_refl) as [r' [Er Rr]].
    rewrite Ey'. simpl. rewrite Er. simpl. eexists. split; [reflexivity|]. constructor; assumption.
Qed.

Lemma concat_perm : forall {A} (l l' : list (list A)), Forall2 (@Permutation A) l l' -> Permutation (concat l) (concat l').
Proof. intros A l l' H. induction H; simpl; [constructor|]. apply Permutation_app; assumption. Qed.

Definition block_perm {A} (b b' : Z * list A) : Prop := fst b = fst b' /\ Permutation (snd b) (snd b').

Lemma blocks_flat : forall {A} (l l' : list (Z * list A)), Forall2 block_perm l l' ->
  Permutation (flat_map snd l) (flat_map snd l').
Proof. intros A l l' H. induction H as [|b b' r r' [_ P] _ IH]; simpl; [constructor|]. apply Permutation_app; assumption. Qed.

Lemma smem_In : forall x l, smem x l = true <-> In x l.
Proof.
  intros x l. unfold smem. rewrite existsb_exists. split.
  - intros [y [H E]]. apply String.eqb_eq in E. congruence.
  - intros H. exists x. split; [exact H|apply String.eqb_refl].
Qed.

Lemma sset_eqb_iff : forall a b, sset_eqb a b = true <-> (forall x, In x a <-> In x b).
Proof.
  intros a b. unfold sset_eqb. rewrite andb_true_iff, !forallb_forall. split.
  - intros [H1 H2] x. split; intros H; [apply H1 in H|apply H2 in H]; apply smem_In in H; exact H.
  - intros H. split; intros x Hx; apply smem_In, H; exact Hx.
Qed.

Lemma perm_In_iff : forall {A} (l l' : list A) x, Permutation l l' -> (In x l <-> In x l').
Proof. intros A l l' x P. split; apply Permutation_in; [exact P|apply Permutation_sym; exact P]. Qed.

Section Two.
Context {T : Type}.
Variables ord ord' : string -> list vec -> list vec.
Hypothesis perm : forall k l, Permutation (ord k l) l.
Hypothesis perm' : forall k l, Permutation (ord' k l) l.

Lemma fl_perm : forall d k l, sget k (determine_unique ord d) = Some l ->
  exists l', sget k (determine_unique ord' d) = Some l' /\ Permutation l l'.
Proof.
  intros d k l H. unfold determine_unique in *.
  rewrite (sget_map (fun k l => ord k (dedup [] l))) in H. rewrite (sget_map (fun k l => ord' k (dedup [] l))).
  destruct (sget k d) as [v|]; [|discriminate]. simpl in *. injection H as <-. eexists. split; [reflexivity|].
  apply Permutation_trans with (dedup [] v); [apply perm|apply Permutation_sym, perm'].
Qed.

Lemma full_perm : forall d (gen : list (Z * list (equation T))) eqs,
  full_equations (determine_unique ord d) gen = Ok eqs ->
  exists eqs', full_equations (determine_unique ord' d) gen = Ok eqs' /\ Forall2 block_perm eqs eqs'.
Proof.
  intros d gen. unfold full_equations. apply mapM_rel. intros [k es] y _ H. cbn [fst snd] in *.
  destruct (mapM (expand (determine_unique ord d)) es) as [ls|] eqn:E; [|discriminate]. simpl in H. injection H as <-.
  destruct (mapM_rel (expand (determine_unique ord d)) (expand (determine_unique ord' d)) (@Permutation (equation T)) es) with (ys := ls) as [ls' [E' P]]; [|exact E|].
  - intros e y _ H. unfold expand in *. destruct (sget (phonon_config_id (cfg (t_cfg (e_index e)))) (determine_unique ord d)) as [l|] eqn:El; [|discriminate].
    destruct (fl_perm d _ l El) as [l' [El' P]]. rewrite El'. apply (mapM_perm _ l l' P). exact H.
  - rewrite E'. simpl. eexists. split; [reflexivity|]. split; [reflexivity|]. apply concat_perm. exact P.
Qed.

Lemma order_irrelevant : forall (m : model T) s, prime_system ord m = Ok s ->
  exists s', prime_system ord' m = Ok s' /\ s_model s' = s_model s /\ s_gen s' = s_gen s /\
    Forall2 block_perm (s_eqs s) (s_eqs s').
Proof.
  intros m s H. unfold prime_system in *. destruct (generate_space m) as [d|]; [|discriminate]. cbn [bind] in *.
  unfold generalized in *. destruct (mapM (gen_block m) d) as [bl|]; [|discriminate]. cbn [bind] in *.
  destruct (green_equation m) as [g|]; [|discriminate]. cbn [bind] in *.
  set (gen := bl ++ [(0, [g])]) in *. destruct (predict_total_terms m _) as [pr|]; [|discriminate]. cbn [bind] in *.
  set (master := fold_left _ _ _) in *.
  destruct (full_equations (determine_unique ord master) gen) as [eqs|] eqn:E; [|discriminate]. cbn [bind] in *.
  destruct (full_perm master gen eqs E) as [eqs' [E' P]]. rewrite E'. cbn [bind].
  destruct (final_checks eqs) as [u|] eqn:F; [|discriminate]. cbn [bind] in H. injection H as <-. cbn [s_eqs s_model s_gen].
  assert (F' : final_checks eqs' = Ok tt).
  { unfold final_checks, guard in *. destruct (sset_eqb (index_ids (flat_map snd eqs)) _) eqn:SE; [|discriminate].
    rewrite (proj2 (sset_eqb_iff _ _)); [reflexivity|]. rewrite sset_eqb_iff in SE. pose proof (blocks_flat _ _ P) as PF.
    intros x. rewrite <- (perm_In_iff _ _ x (Permutation_map (fun e => tid (e_index e)) PF)).
    unfold index_ids in SE. rewrite SE. unfold rhs_ids. apply perm_In_iff. apply Permutation_flat_map. exact PF. }
  rewrite F'. cbn [bind]. eexists. split; [reflexivity|]. auto.
Qed.
End Two.
