(** Lemmas on Cache.v. *)
From Coq Require Import String ZArith List Bool Lia.
From Verif Require Import Base Cache.
Import ListNotations.
Open Scope list_scope.

Lemma fget_fput : forall V n (c : content V) d x, fget x (fput n c d) = if String.eqb n x then Some c else fget x d.
Proof.
  induction d as [|[m y] r IH]; intros x; cbn [fput fget].
  - destruct (String.eqb n x); reflexivity.
  - destruct (String.eqb_spec m n).
    + subst m. cbn [fget]. destruct (String.eqb n x); reflexivity.
    + cbn [fget]. rewrite IH. destruct (String.eqb_spec m x), (String.eqb_spec n x); congruence.
Qed.
Lemma fget_same : forall V n (c : content V) d, fget n (fput n c d) = Some c.
Proof. intros. rewrite fget_fput, String.eqb_refl. reflexivity. Qed.
Lemma fget_other : forall V n (c : content V) d x, n <> x -> fget x (fput n c d) = fget x d.
Proof. intros. rewrite fget_fput. destruct (String.eqb_spec n x); congruence. Qed.

Section Cache.
Context {P V : Type}.
Variable key : P -> string.
Variable calc : P -> result V.
Variable negative : V -> bool.

(** What is stored for a point is its value. *)
Definition sound (d : dir V) (p : P) : Prop := forall c, fget (key p) d = Some c -> exists v, c = Complete v /\ calc p = Ok v.

Lemma solve_sound : forall d p, sound d p -> exists l d', solve key calc negative (Some d) p = (calc p, l, Some d') /\
  (forall v, calc p = Ok v -> fget (key p) d' = Some (Complete v)) /\
  (forall x, x <> key p -> fget x d' = fget x d) /\
  (forall x, calc p = Err x -> d' = d).
Proof.
  intros d p S. unfold solve, pre_solve. destruct (fget (key p) d) as [c|] eqn:G.
  - destruct (S c G) as [v [-> E]]. cbn [unpickle bind]. exists false, d. rewrite E. split; [reflexivity|]. split; [intros w X; congruence|]. split; [auto|congruence].
  - destruct (calc p) as [v|x] eqn:E.
    + cbn [post_solve]. do 2 eexists. split; [reflexivity|]. split; [intros w X; injection X as <-; apply fget_same|].
      split; [intros y N; apply fget_other; congruence|congruence].
    + exists false, d. split; [reflexivity|]. split; [congruence|]. split; auto.
Qed.

Lemma history_sound : forall ps d, (forall p, In p ps -> sound d p) ->
  (forall p q, In p ps -> In q ps -> key p = key q -> calc p = calc q) ->
  exists d', history key calc negative (Some d) (map Solve ps) = (map calc ps, Some d') /\
    (forall p v, In p ps -> calc p = Ok v -> fget (key p) d' = Some (Complete v)) /\
    (forall x, (forall p, In p ps -> key p <> x) -> fget x d' = fget x d).
Proof.
  induction ps as [|p ps IH]; intros d S I.
  - exists d. split; [reflexivity|]. split; [intros p v []|auto].
  - destruct (solve_sound d p (S p (or_introl eq_refl))) as [l [d1 [E [A [B C]]]]].
    assert (S1 : forall q, In q (p :: ps) -> sound d1 q).
    { intros q Q c G. destruct (String.eqb_spec (key q) (key p)) as [K|K].
      - assert (EQ : calc q = calc p) by (apply I; auto; left; reflexivity).
        destruct (calc p) as [v|x] eqn:EC.
        + rewrite K, (A v eq_refl) in G. injection G as <-. exists v. auto.
        + rewrite (C x eq_refl) in G. rewrite EQ. apply (S q Q) in G. destruct G as [v [_ E']]. congruence.
      - rewrite B in G by exact K. apply (S q Q c G). }
    destruct (IH d1) as [d2 [E2 [A2 B2]]].
    + intros q Q. apply S1. right; exact Q.
    + intros q q' Q Q'. apply I; right; assumption.
    + exists d2. cbn [map history]. rewrite E, E2. split; [reflexivity|]. split.
      * intros q v [<-|Q] EV; [|apply A2; auto].
        destruct (existsb (fun q => String.eqb (key q) (key p)) ps) eqn:X.
        -- apply existsb_exists in X. destruct X as [q [Q K]]. apply String.eqb_eq in K. rewrite <- K. apply A2; [exact Q|].
           rewrite (I q p); auto; [right; exact Q|left; reflexivity].
        -- rewrite B2; [apply A; exact EV|]. intros q Q K. rewrite <- not_true_iff_false in X. apply X. apply existsb_exists.
           exists q. split; [exact Q|]. apply String.eqb_eq. exact K.
      * intros x N. rewrite B2 by (intros q Q; apply N; right; exact Q). apply B. intros ->. apply (N p (or_introl eq_refl)). reflexivity.
Qed.

(** Files are never replaced. *)
Lemma solve_keeps : forall d p x c, fget x d = Some c -> exists r l d', solve key calc negative (Some d) p = (r, l, Some d') /\ fget x d' = Some c.
Proof.
  intros d p x c G. unfold solve, pre_solve. destruct (fget (key p) d) as [c'|] eqn:G'.
  - destruct c'; cbn [unpickle bind]; do 3 eexists; split; try reflexivity; exact G.
  - destruct (calc p); cbn [post_solve]; do 3 eexists; (split; [reflexivity|]); [|exact G]. rewrite fget_other; [exact G|]. congruence.
Qed.
Lemma killed_keeps : forall d p x c, fget x d = Some c -> exists d', killed key calc (Some d) p = Some d' /\ fget x d' = Some c.
Proof.
  intros d p x c G. unfold killed, pre_solve. destruct (fget (key p) d) as [c'|] eqn:G'.
  - destruct c'; cbn [unpickle bind]; eexists; split; try reflexivity; exact G.
  - destruct (calc p); eexists; (split; [reflexivity|]); [|exact G]. rewrite fget_other; [exact G|]. congruence.
Qed.
Lemma history_keeps : forall es d x c, fget x d = Some c -> exists rs d', history key calc negative (Some d) es = (rs, Some d') /\ fget x d' = Some c.
Proof.
  induction es as [|[p|p] es IH]; intros d x c G; cbn [history].
  - exists [], d. auto.
  - destruct (solve_keeps d p x c G) as [r [l [d1 [-> G1]]]]. destruct (IH d1 x c G1) as [rs [d2 [-> G2]]]. eauto.
  - destruct (killed_keeps d p x c G) as [d1 [-> G1]]. apply (IH d1 x c G1).
Qed.
End Cache.
