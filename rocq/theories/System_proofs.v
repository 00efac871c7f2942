(** Lemmas on the assembled system. *)
From Coq Require Import String ZArith List Bool Lia Permutation.
From Verif Require Import Base NdArray NdArray_proofs Config Spec Spec_ops Config_proofs Modify_proofs Legal_proofs
  Model Space Spec_space Space_proofs Render Render_proofs Term Equation System Spec_engine Term_proofs Equation_proofs.
Import ListNotations.
Open Scope list_scope.
Open Scope Z_scope.

(** Dictionaries of lists. *)
Definition val {A} (k : string) (d : sdict (list A)) : list A :=
  match sget k d with Some l => l | None => [] end.

Definition good_dict {A} (d : sdict (list A)) : Prop :=
  NoDup (map fst d) /\ Forall (fun kv => snd kv <> []) d.

Lemma eqb_sym_s : forall a b, String.eqb a b = String.eqb b a.
Proof. intros. destruct (String.eqb_spec a b), (String.eqb_spec b a); congruence. Qed.

Lemma sget_sappend : forall {A} k k' (v : A) d,
  sget k (sappend k' v d) = if String.eqb k' k then Some (val k d ++ [v]) else sget k d.
Proof.
  intros A k k' v d. unfold val. induction d as [|[k0 l] r IH]; simpl.
  - destruct (String.eqb k' k); reflexivity.
  - destruct (String.eqb_spec k0 k') as [->|N]; simpl.
    + destruct (String.eqb_spec k' k); reflexivity.
    + destruct (String.eqb_spec k0 k) as [->|N2]; [|exact IH].
      destruct (String.eqb_spec k' k); [congruence|reflexivity].
Qed.

Lemma val_sappend : forall {A} k k' (v : A) d,
  val k (sappend k' v d) = val k d ++ (if String.eqb k' k then [v] else []).
Proof.
  intros. unfold val at 1. rewrite sget_sappend. destruct (String.eqb k' k); [reflexivity|].
  rewrite app_nil_r. reflexivity.
Qed.

Lemma keys_sappend : forall {A} k (v : A) d x,
  In x (map fst (sappend k v d)) <-> x = k \/ In x (map fst d).
Proof.
  intros A k v d x. induction d as [|[k0 l] r IH]; simpl.
  - split; [intros [H|[]]; auto|intros [H|[]]; auto].
  - destruct (String.eqb_spec k0 k) as [->|N]; simpl; [split; [intros [H|H]; auto|intros [H|[H|H]]; auto]|].
    rewrite IH. split; [intros [H|[H|H]]; auto|intros [H|[H|H]]; auto].
Qed.

Lemma good_sappend : forall {A} k (v : A) d, good_dict d -> good_dict (sappend k v d).
Proof.
  intros A k v d [N F]. split.
  - induction d as [|[k0 l] r IH]; simpl; [repeat constructor; simpl; tauto|].
    inversion N; subst. inversion F; subst.
    destruct (String.eqb_spec k0 k) as [->|N2]; simpl; [constructor; assumption|].
    constructor; [|apply IH; assumption]. rewrite keys_sappend. intros [E|H]; auto.
  - clear N. induction d as [|[k0 l] r IH]; simpl.
    + repeat constructor; discriminate.
    + inversion F; subst. destruct (String.eqb k0 k); constructor; simpl; auto.
      destruct l; discriminate.
Qed.

Lemma val_append_list : forall {A} k k' (l : list A) d,
  val k (fold_left (fun acc v => sappend k' v acc) l d) = val k d ++ (if String.eqb k' k then l else []).
Proof.
  intros A k k' l. induction l as [|v r IH]; intros d; simpl.
  - destruct (String.eqb k' k); rewrite app_nil_r; reflexivity.
  - rewrite IH, val_sappend, <- app_assoc. destruct (String.eqb k' k); reflexivity.
Qed.

Lemma good_append_list : forall {A} k' (l : list A) d, good_dict d ->
  good_dict (fold_left (fun acc v => sappend k' v acc) l d).
Proof. intros A k' l. induction l; intros d H; simpl; auto. apply IHl, good_sappend, H. Qed.

Lemma val_notin : forall {A} k (d : sdict (list A)), ~ In k (map fst d) -> val k d = [].
Proof.
  intros A k d H. unfold val. induction d as [|[k0 l] r IH]; simpl in *; [reflexivity|].
  destruct (String.eqb_spec k0 k); [exfalso; auto|]. apply IH. auto.
Qed.

Lemma val_append_master : forall k d m0, NoDup (map fst d) ->
  val k (append_master m0 d) = val k m0 ++ val k d.
Proof.
  intros k d. unfold append_master. induction d as [|[k0 l] r IH]; intros m0 N; simpl.
  - rewrite app_nil_r. reflexivity.
  - inversion N; subst. rewrite IH by assumption. rewrite val_append_list, <- app_assoc. f_equal.
    unfold val at 2. simpl. destruct (String.eqb_spec k0 k) as [->|N2]; [|reflexivity].
    rewrite val_notin by assumption. apply app_nil_r.
Qed.

Lemma good_append_master : forall d m0, good_dict m0 -> good_dict (append_master m0 d).
Proof.
  intros d. unfold append_master. induction d as [|[k0 l] r IH]; intros m0 H; simpl; auto.
  apply IH, good_append_list, H.
Qed.

Lemma sget_good : forall {A} k (d : sdict (list A)), good_dict d ->
  sget k d = match val k d with [] => None | l => Some l end.
Proof.
  intros A k d [_ F]. unfold val. destruct (sget k d) as [l|] eqn:E; [|reflexivity].
  assert (l <> []).
  { induction d as [|[k0 l0] r IH]; simpl in E; [discriminate|]. inversion F; subst.
    destruct (String.eqb k0 k); [injection E as <-; assumption|auto]. }
  destruct l; [congruence|reflexivity].
Qed.

Definition f_of {T} (t : term T) : vec := match t_f t with Some f => f | None => mkVec false [] end.
Definition pid {T} (t : term T) : string := phonon_config_id (cfg (t_cfg t)).
Definition fs_of {T} (k : string) (ts : list (term T)) : list vec :=
  map f_of (filter (fun t => String.eqb (pid t) k) ts).

Lemma fs_of_cons : forall {T} k (t : term T) ts,
  fs_of k (t :: ts) = (if String.eqb (pid t) k then [f_of t] else []) ++ fs_of k ts.
Proof. intros. unfold fs_of. cbn [filter]. destruct (String.eqb (pid t) k); reflexivity. Qed.

Lemma populate_acc : forall {T} (ts : list (term T)) d0, (forall t, In t ts -> t_f t <> None) -> good_dict d0 ->
  exists d, foldM (fun d t => match t_f t with
                    | Some f => Ok (sappend (phonon_config_id (cfg (t_cfg t))) f d)
                    | None => Err AttributeError end) ts d0 = Ok d /\ good_dict d /\
    forall k, val k d = val k d0 ++ fs_of k ts.
Proof.
  induction ts as [|t r IH]; intros d0 H GD; simpl.
  - exists d0. split; [reflexivity|]. split; [exact GD|]. intros. unfold fs_of. simpl. rewrite app_nil_r. reflexivity.
  - destruct (t_f t) as [f|] eqn:Ef; [|exfalso; apply (H t); simpl; auto]. cbn [bind].
    destruct (IH (sappend (phonon_config_id (cfg (t_cfg t))) f d0)) as [d [E [GD' V]]].
    + intros t' Ht'. apply H. simpl. auto.
    + apply good_sappend. exact GD.
    + exists d. split; [exact E|]. split; [exact GD'|]. intros k. rewrite V, val_sappend, fs_of_cons, <- app_assoc.
      unfold pid, f_of. rewrite Ef. reflexivity.
Qed.

Lemma populate_spec : forall {T} (ts : list (term T)), (forall t, In t ts -> t_f t <> None) ->
  exists d, populate ts = Ok d /\ good_dict d /\ forall k, val k d = fs_of k ts.
Proof.
  intros T ts H. destruct (populate_acc ts [] H) as [d HH]; [split; simpl; constructor|].
  exists d. exact HH.
Qed.

(** Deduplication. *)
Lemma dedup_spec : forall l seen,
  (forall v, In v (dedup seen l) -> In v l) /\
  (forall x, In x (map v2 (dedup seen l)) <-> In x (map v2 l) /\ ~ In x seen) /\
  NoDup (map v2 (dedup seen l)).
Proof.
  induction l as [|v r IH]; intros seen; simpl.
  - split; [tauto|]. split; [tauto|constructor].
  - destruct (existsb (eqlZ (v2 v)) seen) eqn:E.
    + apply existsb_exists in E. destruct E as [y [Hy E]]. apply eqlZ_eq in E. subst y.
      destruct (IH seen) as [A [B C]]. split; [intros; right; auto|]. split; [|exact C].
      intros x. rewrite B. split; [tauto|]. intros [[<-|H] N]; tauto.
    + assert (Ns : ~ In (v2 v) seen).
      { intros H. assert (existsb (eqlZ (v2 v)) seen = true); [|congruence].
        apply existsb_exists. exists (v2 v). split; [exact H|apply eqlZ_refl]. }
      destruct (IH (v2 v :: seen)) as [A [B C]]. split; [intros w [->|H]; auto|]. split.
      * intros x. simpl. rewrite B. simpl. split.
        -- intros [<-|[H N]]; [tauto|]. split; [tauto|]. intros Hs. apply N. auto.
        -- intros [[H|H] N]; [left; exact H|].
           destruct (list_eq_dec Z.eq_dec (v2 v) x) as [E'|E']; [left; exact E'|right]. split; [exact H|]. intros [E2|H2]; auto.
      * simpl. constructor; [|exact C]. rewrite B. simpl. tauto.
Qed.

Lemma mapM_map : forall {A B C} (f : B -> result C) (g : A -> B) l, mapM f (map g l) = mapM (fun x => f (g x)) l.
Proof. induction l; simpl; [reflexivity|]. rewrite IHl. reflexivity. Qed.

Lemma sget_map : forall {A B} (f : string -> A -> B) d k,
  sget k (map (fun kv => (fst kv, f (fst kv) (snd kv))) d) = option_map (f k) (sget k d).
Proof.
  intros A B f d k. induction d as [|[k0 v] r IH]; simpl; [reflexivity|].
  destruct (String.eqb_spec k0 k) as [->|N]; [reflexivity|exact IH].
Qed.

(** The full equation of a generalized one. *)
Definition incr {T} (d : vec) (t : term T) : term T :=
  match t_kind t, t_g t with
  | KEom, _ => t
  | _, Some g => mkTerm (t_kind t) (t_cfg t) (t_h t) (t_const t) (t_exp t) (t_f t)
                   (Some (mkVec (isf g) (addv (v2 g) (v2 d)))) (t_fshift t)
  | _, None => t
  end.

Definition with_f {T} (t : term T) (d : vec) : term T :=
  mkTerm (t_kind t) (t_cfg t) None (t_const t) (t_exp t) (Some d) (t_g t) (t_fshift t).

Definition full {T} (e : equation T) (d : vec) : equation T :=
  mkEq (e_green e) (with_f (e_index e) d) (map (incr d) (e_terms e)) (e_fargs e).

Lemma tid_incr : forall {T} d (t : term T), tid (incr d t) = tid t.
Proof. intros T d t. unfold incr, tid. destruct (t_kind t), (t_g t); reflexivity. Qed.

Lemma tid_pid : forall {T} (t : term T), tid t = (pid t ++ f_arg_id (t_f t))%string.
Proof. reflexivity. Qed.

Section Assemble.
Context {T : Type}.
Variable ord : string -> list vec -> list vec.
Hypothesis ord_perm : forall k l, Permutation (ord k l) l.
Variable n : nat.
Variable gen : list (Z * list (equation T)).
Let allg := flat_map snd gen.
Variable master : sdict (list vec).
Hypothesis master_good : good_dict master.
Hypothesis master_val : forall k, val k master = flat_map (fun e => fs_of k (e_terms e)) allg.
Hypothesis idx_ok : forall e, In e allg -> t_h (e_index e) = None /\ ndim (cfg (t_cfg (e_index e))) = n.
Hypothesis terms_ok : forall e t, In e allg -> In t (e_terms e) ->
  (exists f, t_f t = Some f /\ List.length (v2 f) = n) /\
  (t_kind t = KEom \/
   ((t_kind t = KAnnih \/ t_kind t = KCreat) /\ exists g, t_g t = Some g /\ List.length (v2 g) = n)).
Hypothesis dtype_ok : forall e t g e' t', In e allg -> In t (e_terms e) -> t_g t = Some g ->
  In e' allg -> In t' (e_terms e') -> isf (f_of t') = true -> isf g = true \/ t_kind t = KEom.
Hypothesis closed : forall e t, In e allg -> In t (e_terms e) ->
  exists e', In e' allg /\ pid (e_index e') = pid t.
Hypothesis reached : forall e, In e allg -> exists e' t, In e' allg /\ In t (e_terms e') /\ pid t = pid (e_index e).

Definition needed (k : string) : list vec := ord k (dedup [] (val k master)).

Lemma In_needed : forall k x, In x (map v2 (needed k)) <->
  exists e t, In e allg /\ In t (e_terms e) /\ pid t = k /\ v2 (f_of t) = x.
Proof.
  intros k x. unfold needed.
  assert (P : Permutation (map v2 (ord k (dedup [] (val k master)))) (map v2 (dedup [] (val k master))))
    by (apply Permutation_map, ord_perm).
  split.
  - intros H. apply (Permutation_in _ P) in H. destruct (dedup_spec (val k master) []) as [_ [B _]]. apply B in H.
    destruct H as [H _]. rewrite master_val in H. apply in_map_iff in H. destruct H as [v [<- Hv]].
    apply in_flat_map in Hv. destruct Hv as [e [He Hv]]. unfold fs_of in Hv. apply in_map_iff in Hv.
    destruct Hv as [t [<- Ht]]. apply filter_In in Ht. destruct Ht as [Ht E]. apply String.eqb_eq in E.
    exists e, t. auto.
  - intros [e [t [He [Ht [E <-]]]]]. apply (Permutation_in _ (Permutation_sym P)).
    destruct (dedup_spec (val k master) []) as [_ [B _]]. apply B. split; [|tauto]. apply in_map.
    rewrite master_val. apply in_flat_map. exists e. split; [exact He|]. unfold fs_of. apply in_map, filter_In.
    split; [exact Ht|]. apply String.eqb_eq. exact E.
Qed.

Lemma In_needed_src : forall k v, In v (needed k) ->
  exists e t, In e allg /\ In t (e_terms e) /\ pid t = k /\ f_of t = v.
Proof.
  intros k v H. unfold needed in H. apply (Permutation_in _ (ord_perm _ _)) in H.
  apply (proj1 (dedup_spec _ _)) in H. rewrite master_val in H. apply in_flat_map in H.
  destruct H as [e [He Hv]]. unfold fs_of in Hv. apply in_map_iff in Hv. destruct Hv as [t [<- Ht]].
  apply filter_In in Ht. destruct Ht as [Ht E]. apply String.eqb_eq in E. exists e, t. auto.
Qed.

Lemma needed_nodup : forall k, NoDup (map v2 (needed k)).
Proof.
  intros k. unfold needed. apply (Permutation_NoDup (l := map v2 (dedup [] (val k master)))).
  - apply Permutation_map, Permutation_sym, ord_perm.
  - apply dedup_spec.
Qed.

Lemma needed_nonempty : forall e, In e allg -> val (pid (e_index e)) master <> [].
Proof.
  intros e He. destruct (reached e He) as [e' [t [He' [Ht E]]]].
  assert (H : In (f_of t) (val (pid (e_index e)) master)).
  { rewrite master_val. apply in_flat_map. exists e'. split; [exact He'|]. unfold fs_of. apply in_map, filter_In.
    split; [exact Ht|]. apply String.eqb_eq. exact E. }
  intros N. rewrite N in H. destruct H.
Qed.

Lemma init_full_ok : forall e k v, In e allg -> In v (needed k) -> init_full e v = Ok (full e v).
Proof.
  intros e k v He Hv. destruct (In_needed_src k v Hv) as [e' [t' [He' [Ht' [_ Ev]]]]].
  destruct (idx_ok e He) as [Ih In0].
  assert (Lv : List.length (v2 v) = n).
  { destruct (terms_ok e' t' He' Ht') as [[f [Ef Lf]] _]. subst v. unfold f_of. rewrite Ef. exact Lf. }
  unfold init_full, set_f_arg. rewrite Ih. rewrite checked_ok by lia. cbn [bind].
  rewrite mapM_ok with (g := incr v); [reflexivity|].
  intros t Ht. unfold increment_g, incr. destruct (terms_ok e t He Ht) as [_ [K|[K [g [Eg Lg]]]]].
  - rewrite K. reflexivity.
  - assert (V : vadd_ip g v = Ok (mkVec (isf g) (addv (v2 g) (v2 v)))).
    { unfold vadd_ip. rewrite Lg, Lv, Nat.eqb_refl. destruct (isf g) eqn:Ig; [reflexivity|]. destruct (isf v) eqn:Iv; [|reflexivity].
      exfalso. subst v. destruct (dtype_ok e t g e' t' He Ht Eg He' Ht' Iv) as [H|H]; [congruence|].
      rewrite H in K. destruct K; discriminate. }
    rewrite Eg. destruct K as [K|K]; rewrite K; rewrite V; reflexivity.
Qed.

Lemma expand_ok : forall e, In e allg ->
  expand (determine_unique ord master) e = Ok (map (full e) (needed (pid (e_index e)))).
Proof.
  intros e He. unfold expand, determine_unique. fold (pid (e_index e)).
  rewrite (sget_map (fun k l => ord k (dedup [] l))). rewrite (sget_good _ _ master_good).
  destruct (val (pid (e_index e)) master) as [|v0 l0] eqn:E; [exfalso; apply (needed_nonempty e He E)|].
  rewrite <- E. cbn [option_map]. fold (needed (pid (e_index e))).
  apply mapM_ok. intros v Hv. apply (init_full_ok e (pid (e_index e))); assumption.
Qed.

Definition full_block (es : list (equation T)) : list (equation T) :=
  flat_map (fun e => map (full e) (needed (pid (e_index e)))) es.

Lemma full_equations_ok :
  full_equations (determine_unique ord master) gen = Ok (map (fun kv => (fst kv, full_block (snd kv))) gen).
Proof.
  unfold full_equations. apply mapM_ok. intros [k es] Hkv. cbn [fst snd].
  rewrite mapM_ok with (g := fun e => map (full e) (needed (pid (e_index e)))).
  - cbn [bind]. rewrite concat_map. reflexivity.
  - intros e He. apply expand_ok. unfold allg. apply in_flat_map. exists (k, es). auto.
Qed.

Definition alleqs := flat_map snd (map (fun kv : Z * list (equation T) => (fst kv, full_block (snd kv))) gen).

Lemma In_alleqs : forall q, In q alleqs <-> exists e v, In e allg /\ In v (needed (pid (e_index e))) /\ q = full e v.
Proof.
  intros q. unfold alleqs, allg. rewrite in_flat_map. split.
  - intros [kv [H1 H2]]. apply in_map_iff in H1. destruct H1 as [[k es] [<- H1]]. cbn [snd] in H2.
    apply in_flat_map in H2. destruct H2 as [e [He H2]]. apply in_map_iff in H2. destruct H2 as [v [<- Hv]].
    exists e, v. split; [|auto]. apply in_flat_map. exists (k, es). auto.
  - intros [e [v [He [Hv ->]]]]. apply in_flat_map in He. destruct He as [[k es] [H1 H2]].
    exists (k, full_block es). split; [apply in_map_iff; exists (k, es); auto|]. cbn [snd] in *.
    apply in_flat_map. exists e. split; [exact H2|]. apply in_map. exact Hv.
Qed.

Lemma alleqs_flat : alleqs = full_block allg.
Proof.
  unfold alleqs, allg, full_block. rewrite flat_map_concat_map, map_map. cbn [snd].
  clear. induction gen as [|[k es] r IH]; simpl; [reflexivity|]. rewrite IH, flat_map_app. reflexivity.
Qed.

Lemma ids_closed : forall x, In x (index_ids alleqs) <-> In x (rhs_ids alleqs).
Proof.
  intros x. unfold index_ids, rhs_ids. rewrite in_map_iff, in_flat_map. split.
  - intros [q [<- Hq]]. apply In_alleqs in Hq. destruct Hq as [e [v [He [Hv ->]]]].
    destruct (In_needed_src _ v Hv) as [e' [t [He' [Ht [Ep Ev]]]]].
    destruct (needed (pid (e_index e'))) as [|w ws] eqn:EN.
    { exfalso. pose proof (needed_nonempty e' He') as NE. unfold needed in EN.
      pose proof (ord_perm (pid (e_index e')) (dedup [] (val (pid (e_index e')) master))) as P. rewrite EN in P.
      apply Permutation_nil in P. destruct (val (pid (e_index e')) master); [congruence|]. simpl in P. discriminate. }
    exists (full e' w). split.
    + apply In_alleqs. exists e', w. rewrite EN. simpl. auto.
    + cbn [full e_terms]. rewrite map_map. apply in_map_iff. exists t. split; [|exact Ht].
      rewrite tid_incr, !tid_pid. cbn [full e_index with_f]. unfold pid in *. cbn [t_cfg t_f with_f].
      rewrite Ep. f_equal. destruct (terms_ok e' t He' Ht) as [[f [Ef _]] _]. unfold f_of in Ev. rewrite Ef in *. rewrite Ev. reflexivity.
  - intros [q [Hq Hx]]. apply In_alleqs in Hq. destruct Hq as [e [v [He [Hv ->]]]].
    cbn [full e_terms] in Hx. rewrite map_map in Hx. apply in_map_iff in Hx. destruct Hx as [t [<- Ht]].
    rewrite tid_incr. destruct (closed e t He Ht) as [e' [He' Ep]].
    assert (HN : In (v2 (f_of t)) (map v2 (needed (pid (e_index e'))))).
    { apply In_needed. exists e, t. auto. }
    apply in_map_iff in HN. destruct HN as [w [Ew Hw]]. exists (full e' w). split.
    + rewrite !tid_pid. cbn [full e_index with_f]. unfold pid in *. cbn [t_cfg t_f with_f]. rewrite Ep. f_equal.
      destruct (terms_ok e t He Ht) as [[f [Ef _]] _]. apply f_arg_id_ext. unfold f_of in Ew. rewrite Ef in *. simpl. congruence.
    + apply In_alleqs. exists e', w. auto.
Qed.

Lemma final_ok : final_checks (map (fun kv => (fst kv, full_block (snd kv))) gen) = Ok tt.
Proof.
  unfold final_checks. fold alleqs. unfold sset_eqb.
  assert (A : forall l1 l2, (forall x, In x l1 -> In x l2) -> forallb (fun x => smem x l2) l1 = true).
  { intros l1 l2 H. apply forallb_forall. intros x Hx. unfold smem. apply existsb_exists. exists x.
    split; [apply H; exact Hx|apply String.eqb_refl]. }
  rewrite !A; [reflexivity| |]; intros x; apply ids_closed.
Qed.

(** No unknown is indexed twice, provided distinct generalized equations have
    distinct config ids. *)
Lemma index_nodup : NoDup (map (fun e => pid (e_index e)) allg) ->
  (forall e, In e allg -> valid_cloud (cfg (t_cfg (e_index e)))) -> NoDup (index_ids alleqs).
Proof.
  intros N V. rewrite alleqs_flat. unfold index_ids, full_block.
  assert (R : forall A B C (g : B -> C) (f : A -> list B) l, map g (flat_map f l) = flat_map (fun x => map g (f x)) l).
  { intros. induction l; simpl; [reflexivity|]. rewrite map_app, IHl. reflexivity. }
  rewrite R. apply NoDup_flat_map.
  - apply (NoDup_map_inv (fun e => pid (e_index e))). exact N.
  - intros e He. rewrite map_map. pose proof (needed_nodup (pid (e_index e))) as ND.
    apply (NoDup_map_inj (fun v => tid (e_index (full e v)))).
    + intros v w Hv Hw E. apply (in_map v2) in Hv as Hv2.
      unfold tid in E. cbn [full e_index with_f t_cfg t_f] in E.
      apply term_id_spec in E; [|apply V; exact He|apply V; exact He]. destruct E as [_ E]. injection E as E.
      revert ND Hv Hw E. generalize (needed (pid (e_index e))). clear. intros l ND Hv Hw E.
      induction l as [|u r IH]; [destruct Hv|]. simpl in ND. inversion ND as [|? ? Hn ND']; subst.
      destruct Hv as [->|Hv], Hw as [->|Hw]; auto.
      * exfalso. apply Hn. rewrite E. apply in_map. exact Hw.
      * exfalso. apply Hn. rewrite <- E. apply in_map. exact Hv.
    + apply (NoDup_map_inv v2). exact ND.
  - intros e e' z He He' Hz Hz'. rewrite map_map in Hz, Hz'. apply in_map_iff in Hz, Hz'.
    destruct Hz as [v [Ev _]]. destruct Hz' as [v' [Ev' _]]. subst z.
    unfold tid in Ev'. cbn [full e_index with_f t_cfg t_f] in Ev'.
    apply term_id_spec in Ev'; [|apply V; exact He'|apply V; exact He]. destruct Ev' as [SC _].
    assert (EP : pid (e_index e') = pid (e_index e)).
    { unfold pid. apply phonon_config_id_spec; [apply V; exact He'|apply V; exact He|exact SC]. }
    revert N He He' EP. generalize allg. clear. intros l N He He' EP.
    induction l as [|u r IH]; [destruct He|]. simpl in N. inversion N as [|? ? Hn N']; subst.
    destruct He as [->|He], He' as [->|He']; auto.
    + exfalso. apply Hn. rewrite <- EP. apply (in_map (fun e => pid (e_index e))). exact He'.
    + exfalso. apply Hn. rewrite EP. apply (in_map (fun e => pid (e_index e))). exact He.
Qed.

End Assemble.
