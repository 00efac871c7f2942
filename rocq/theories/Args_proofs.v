(** Lemmas on Args.v. *)
From Coq Require Import String List Bool Lia.
From Verif Require Import Base Config Equation Args Spec_args.
Import ListNotations.
Open Scope list_scope.

Section Binding.
Context {V : Type}.

Lemma take_app : forall ps qs (pos : list V) kw, take (ps ++ qs) pos kw =
  (' (b1, p1, k1) <- take ps pos kw ;; ' (b2, p2, k2) <- take qs p1 k1 ;; Ok (b1 ++ b2, p2, k2)).
Proof.
  induction ps as [|p ps IH]; intros qs pos kw.
  - cbn [app take bind]. destruct (take qs pos kw) as [[[b a] k]|]; reflexivity.
  - cbn [app take]. destruct pos as [|v pos]; destruct (sget p kw) as [v'|]; try reflexivity; rewrite IH.
    + destruct (take ps [] _) as [[[b a] k]|]; [|reflexivity]. cbn [bind]. destruct (take qs a k) as [[[b2 a2] k2]|]; reflexivity.
    + destruct (take ps [] kw) as [[[b a] k]|]; [|reflexivity]. cbn [bind]. destruct (take qs a k) as [[[b2 a2] k2]|]; reflexivity.
    + destruct (take ps pos kw) as [[[b a] k]|]; [|reflexivity]. cbn [bind]. destruct (take qs a k) as [[[b2 a2] k2]|]; reflexivity.
Qed.

Lemma mumps_flat : forall (pos : list V) kw, mumps_call pos kw = take_all mumps_names pos kw.
Proof.
  intros pos kw. unfold mumps_call, take_all. change mumps_names with (mumps_params ++ mass_params ++ solver_params). rewrite take_app.
  destruct (take mumps_params pos kw) as [[[b1 p1] k1]|]; [|reflexivity]. cbn [bind]. rewrite take_app.
  destruct (take mass_params p1 k1) as [[[b2 p2] k2]|]; [|reflexivity]. cbn [bind].
  destruct (take solver_params p2 k2) as [[[b3 p3] k3]|]; [|reflexivity]. cbn [bind]. destruct p3, k3; reflexivity.
Qed.

Lemma sget_notin : forall x (kw : sdict V), sget x kw = None <-> ~ In x (map fst kw).
Proof.
  intros x kw. induction kw as [|[k v] kw IH]; cbn [sget map fst]; [split; auto|]. destruct (String.eqb_spec k x) as [->|N].
  - split; [discriminate|]. intros H. exfalso. apply H. left. reflexivity.
  - rewrite IH. cbn [In]. tauto.
Qed.
Lemma sget_filter : forall x p (kw : sdict V), x <> p -> sget x (filter (fun kv => negb (String.eqb (fst kv) p)) kw) = sget x kw.
Proof.
  intros x p kw N. induction kw as [|[k v] kw IH]; [reflexivity|]. cbn [filter fst sget]. destruct (String.eqb_spec k p) as [->|N']; cbn [negb].
  - destruct (String.eqb_spec p x) as [->|]; [contradiction|exact IH].
  - cbn [sget]. rewrite IH. reflexivity.
Qed.
Lemma keys_filter : forall p (kw : sdict V) x, In x (map fst (filter (fun kv => negb (String.eqb (fst kv) p)) kw)) <-> In x (map fst kw) /\ x <> p.
Proof.
  intros p kw x. rewrite !in_map_iff. split.
  - intros [[k v] [<- H]]. apply filter_In in H. destruct H as [H N]. cbn [fst] in *. split; [exists (k, v); auto|].
    intros ->. rewrite String.eqb_refl in N. discriminate N.
  - intros [[[k v] [<- H]] N]. exists (k, v). split; [reflexivity|]. apply filter_In. split; [exact H|]. cbn [fst] in *.
    destruct (String.eqb_spec k p); [contradiction|reflexivity].
Qed.

(** Only keywords. *)
Lemma take_kw : forall ps (kw : sdict V), NoDup ps -> exists b k, take ps [] kw = Ok (b, [], k) /\
  (forall x, sget x b = if existsb (String.eqb x) ps then sget x kw else None) /\
  (forall x, In x (map fst k) <-> In x (map fst kw) /\ ~ In x ps).
Proof.
  induction ps as [|p ps IH]; intros kw N.
  - exists [], kw. split; [reflexivity|]. split; [reflexivity|]. intros x. cbn. tauto.
  - inversion N; subst. cbn [take]. destruct (sget p kw) as [v|] eqn:G.
    + destruct (IH (filter (fun kv => negb (String.eqb (fst kv) p)) kw) H2) as (b & k & E & A & B). rewrite E. cbn [bind].
      exists ((p, v) :: b), k. split; [reflexivity|]. split.
      * intros x. cbn [sget existsb]. rewrite (String.eqb_sym x p). destruct (String.eqb_spec p x) as [->|NE]; cbn [orb]; [symmetry; exact G|].
        rewrite A, sget_filter by congruence. reflexivity.
      * intros x. rewrite B, keys_filter. cbn [In]. split; [intros [[X Y] Z]; split; [exact X|]; intros [W|W]; [congruence|contradiction]|].
        intros [X Y]. split; [split; [exact X|]|]; intros W; apply Y; auto.
    + destruct (IH kw H2) as (b & k & E & A & B). exists b, k. split; [exact E|]. split.
      * intros x. rewrite A. cbn [existsb]. rewrite (String.eqb_sym x p). destruct (String.eqb_spec p x) as [->|NE]; cbn [orb]; [|reflexivity].
        rewrite G. destruct (existsb (String.eqb x) ps); reflexivity.
      * intros x. rewrite B. cbn [In]. split; [intros [X Y]; split; [exact X|]; intros [W|W]; [|contradiction]|tauto].
        subst x. apply sget_notin in G. contradiction.
Qed.

Lemma existsb_In : forall x l, existsb (String.eqb x) l = true <-> In x l.
Proof.
  intros x l. rewrite existsb_exists. split; [intros [y [A B]]; apply String.eqb_eq in B; subst; exact A|]. intros H. exists x. split; [exact H|apply String.eqb_refl].
Qed.

Lemma meaning_nil : forall ps (kw : sdict V) x, meaning ps [] kw x = if existsb (String.eqb x) ps then sget x kw else None.
Proof. intros [|p ps] kw x; reflexivity. Qed.

(** An acceptable call gives every parameter its meaning; any other is a
    TypeError. *)
Lemma take_all_ok : forall names (pos : list V) kw, NoDup names -> acceptable names pos kw ->
  exists b, take_all names pos kw = Ok b /\ forall x, sget x b = meaning names pos kw x.
Proof.
  induction names as [|n names IH]; intros pos kw N [L K].
  - destruct pos; [|cbn in L; lia]. destruct kw as [|[k v] kw]; [|exfalso; exact (K k (or_introl eq_refl))]. exists []. split; reflexivity.
  - destruct pos as [|v pos].
    + destruct (take_kw (n :: names) kw N) as (b & k & E & A & B). unfold take_all. rewrite E. cbn [bind].
      exists b. split; [|intros x; rewrite A, meaning_nil; reflexivity].
      destruct k as [|[x u] k]; [reflexivity|]. exfalso. destruct (proj1 (B x) (or_introl eq_refl)) as [X Y]. apply Y, K, X.
    + inversion N; subst. cbn [List.length] in L. assert (A' : acceptable names pos kw) by (split; [lia|exact K]).
      destruct (IH pos kw H2 A') as (b & E & A). exists ((n, v) :: b). split.
      * unfold take_all in *. cbn [take]. replace (sget n kw) with (@None V).
        -- destruct (take names pos kw) as [[[b' a'] k']|]; [|discriminate]. cbn [bind] in *. destruct a', k'; try discriminate. injection E as ->. reflexivity.
        -- symmetry. apply sget_notin. intros H. apply K in H. cbn [List.length skipn] in H. apply H1.
           rewrite <- (firstn_skipn (List.length pos) names). apply in_or_app. right. exact H.
      * intros x. cbn [sget meaning]. destruct (String.eqb n x); [reflexivity|apply A].
Qed.

Lemma take_all_bad : forall names (pos : list V) kw, NoDup names -> ~ acceptable names pos kw -> take_all names pos kw = Err TypeError.
Proof.
  induction names as [|n names IH]; intros pos kw N H.
  - unfold take_all. cbn [take bind]. destruct pos; [|reflexivity]. destruct kw; [|reflexivity]. exfalso. apply H. split; [cbn; lia|intros x []].
  - destruct pos as [|v pos].
    + destruct (take_kw (n :: names) kw N) as (b & k & E & A & B). unfold take_all. rewrite E. cbn [bind].
      destruct k as [|[x u] k]; [|reflexivity]. exfalso. apply H. split; [cbn; lia|]. intros x X. cbn [skipn List.length].
      apply existsb_In. destruct (existsb (String.eqb x) (n :: names)) eqn:Q; [reflexivity|]. exfalso. apply (proj2 (B x)).
      split; [exact X|]. intros Y. apply existsb_In in Y. congruence.
    + inversion N; subst. unfold take_all. cbn [take]. destruct (sget n kw) as [u|] eqn:G; [reflexivity|].
      assert (X : ~ acceptable names pos kw). { intros [L K]. apply H. split; [cbn [List.length]; lia|exact K]. }
      specialize (IH pos kw H3 X). unfold take_all in IH. destruct (take names pos kw) as [[[b' a'] k']|y]; cbn [bind] in *; [|exact IH].
      destruct a', k'; congruence.
Qed.
End Binding.
