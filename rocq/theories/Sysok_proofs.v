(** What the solvers rely on, for every constructed system. *)
From Coq Require Import String ZArith List Bool Lia Permutation.
From Verif Require Import Base NdArray NdArray_proofs Config Spec Spec_ops Config_proofs Modify_proofs Legal_proofs
  Model Space Spec_space Space_proofs Count_proofs Render Render_proofs Term Equation System Spec_engine
  Term_proofs Equation_proofs System_proofs Prime_proofs Engine_proofs Order_proofs Ring Coef Spec_eom Solvers Spec_solve.
Import ListNotations.
Open Scope list_scope.
Open Scope Z_scope.

Record sys_ok {T} (s : system T) : Prop := {
  so_N : 0 < total_bosons s;
  so_keys : map fst (s_eqs s) = range 1 (total_bosons s + 1) ++ [0];
  so_nodup : NoDup (index_ids (all_eqs s));
  so_closed : forall q t, In q (all_eqs s) -> In t (e_terms q) -> In (tid t) (index_ids (all_eqs s));
  so_level : forall k es q, In (k, es) (s_eqs s) -> In q es -> total (cfg (t_cfg (e_index q))) = k /\
    ((0 < k /\ forall t, In t (e_terms q) -> total (cfg (t_cfg t)) = k - 1 \/ total (cfg (t_cfg t)) = k + 1) \/
     (k = 0 /\ forall t, In t (e_terms q) -> total (cfg (t_cfg t)) = 1));
  so_valid : forall q t, In q (all_eqs s) -> t = e_index q \/ In t (e_terms q) ->
    valid_cloud (cfg (t_cfg t)) /\ exists f, t_f t = Some f;
  so_idx : forall q, In q (all_eqs s) -> t_kind (e_index q) = KIndex;
  so_green : exists l q, s_eqs s = l ++ [(0, [q])] /\ tid (e_index q) = "{G}[0.0]"%string /\ e_green q = true /\
    forall q', In q' (flat_map snd l) -> e_green q' = false }.

Lemma sumZ_pos : forall l, l <> [] -> (forall t, (t < List.length l)%nat -> 1 <= nth t l 0) -> 1 <= sumZ l.
Proof.
  intros l. induction l as [|x r IH]; intros NE H; [congruence|]. pose proof (H 0%nat ltac:(simpl; lia)) as H0.
  cbn [nth] in H0. change (sumZ (x :: r)) with (x + sumZ r). destruct r as [|y r].
  - cbn. lia.
  - assert (1 <= sumZ (y :: r)); [|lia]. apply IH; [discriminate|]. intros t Ht. apply (H (S t)). simpl in *; lia.
Qed.

Lemma sys_ok_good : forall {T} (m : model T) ae ord s, good_model m ae -> (forall k l, Permutation (ord k l) l) ->
  prime_system ord m = Ok s -> sys_ok s /\ s_model s = m.
Proof.
  intros T m ae ord s G P Es. destruct (s_is m ae G ord P s Es) as [d [Ed S]].
  assert (EM : s_model s = m) by (rewrite S; reflexivity). split; [|exact EM].
  pose proof (In_blocks s) as IB. fold (all_eqs s) in IB.
  constructor.
  - unfold total_bosons. rewrite EM. destruct (gm_wf _ _ G) as [_ [_ [Lp Hn]]].
    assert (1 <= sumZ (m_pn m)); [|lia]. apply sumZ_pos; [destruct (m_pn m); simpl in *; [lia|discriminate]|].
    intros t Ht. apply (gm_pn _ _ G). lia.
  - unfold total_bosons. rewrite EM, S. cbn [s_eqs]. unfold eqsl, genl. rewrite map_map. cbn [fst].
    change (fun x : Z * list (equation T) => fst x) with (@fst Z (list (equation T))). rewrite map_app, map_map. cbn [map fst].
    change (fun x : Z * list config => fst x) with (@fst Z (list config)). rewrite (proj1 (d_spec m ae G d Ed)). reflexivity.
  - exact (proj1 (s_ids m ae G ord P s Es)).
  - intros q t Hq Ht. apply (proj2 (s_ids m ae G ord P s Es)). unfold rhs_ids. apply in_flat_map. exists q. split; [exact Hq|].
    apply in_map. exact Ht.
  - intros k es q Hk Hq. exact (hierarchy m ae G ord P s Es k es q Hk Hq).
  - intros q t Hq Ht. apply IB in Hq. destruct Hq as [k [es [H1 H2]]].
    destruct (q_valid m ae G ord P s Es k es q H1 H2) as [V [F B]]. destruct Ht as [->|Ht]; [auto|].
    destruct (B t Ht) as [Vt [f [Ef _]]]. split; [exact Vt|exists f; exact Ef].
  - intros q Hq. apply IB in Hq. destruct Hq as [k [es [H1 H2]]].
    destruct (s_eq_form m ae G ord P s Es k es q H1 H2) as [v [[[_ ->]|[a [_ [_ ->]]]] _]]; reflexivity.
  - destruct (green_block m ae G ord P s Es) as [q [Hq [Eg [F0 [[f [Ef Zf]] [l [El [Pl N]]]]]]]]. exists l, q.
    split; [exact El|]. split; [|split; [exact Eg|]].
    + unfold tid, term_id. rewrite Ef. unfold f_arg_id. rewrite Zf.
      destruct (q_valid m ae G ord P s Es 0 [q] q Hq (or_introl eq_refl)) as [V _].
      rewrite (proj2 (green_id (cfg (t_cfg (e_index q)))) (proj2 (valid_total_free _ V) F0)). reflexivity.
    + intros q' Hq'. apply in_flat_map in Hq'. destruct Hq' as [[k es] [H1 H2]].
      assert (I : In (k, es) (s_eqs s)) by (rewrite El; apply in_app_iff; left; exact H1).
      destruct (s_eq_form m ae G ord P s Es k es q' I H2) as [v [[[-> _]|[a [_ [_ ->]]]] _]]; [|reflexivity].
      rewrite Forall_forall in Pl. apply Pl in H1. simpl in H1. lia.
Qed.

Section Facts.
Context {T : Type}.
Variable s : system T.
Hypothesis O : sys_ok s.

Lemma In_all : forall q, In q (all_eqs s) <-> exists k es, In (k, es) (s_eqs s) /\ In q es.
Proof. apply In_blocks. Qed.

Lemma keys_nodup : NoDup (map fst (s_eqs s)).
Proof.
  rewrite (so_keys s O). apply NoDup_app; [apply NoDup_range|repeat constructor; intros []|].
  intros x H1 [<-|[]]. apply In_range in H1. lia.
Qed.

Lemma level_ex : forall n, 0 <= n <= total_bosons s -> exists es, In (n, es) (s_eqs s) /\ assocZ n (s_eqs s) = Some es.
Proof.
  intros n Hn. assert (I : In n (map fst (s_eqs s))).
  { rewrite (so_keys s O). apply in_app_iff. rewrite In_range. destruct (Z.eq_dec n 0) as [->|]; [right; left; reflexivity|left; lia]. }
  apply in_map_iff in I. destruct I as [[k es] [<- H]]. exists es. split; [exact H|]. apply assocZ_In; [apply keys_nodup|exact H].
Qed.

Lemma level_range : forall n es, In (n, es) (s_eqs s) -> 0 <= n <= total_bosons s.
Proof.
  intros n es H. apply (in_map fst) in H. rewrite (so_keys s O) in H. apply in_app_iff in H. cbn [fst] in H.
  rewrite In_range in H. pose proof (so_N s O). destruct H as [H|[<-|[]]]; lia.
Qed.

Lemma level_unique : forall n es es', In (n, es) (s_eqs s) -> In (n, es') (s_eqs s) -> es = es'.
Proof.
  intros n es es' H H'. apply (assocZ_In _ _ _ keys_nodup) in H. apply (assocZ_In _ _ _ keys_nodup) in H'. congruence.
Qed.

Lemma u_same : forall {K : cring} (u : nd * list Z -> K) q t q' t', proper u -> In q (all_eqs s) -> In q' (all_eqs s) ->
  t = e_index q \/ In t (e_terms q) -> t' = e_index q' \/ In t' (e_terms q') -> tid t = tid t' -> u (unk t) = u (unk t').
Proof.
  intros K u q t q' t' P Hq Hq' Ht Ht' E. destruct (so_valid s O q t Hq Ht) as [V [f Ef]].
  destruct (so_valid s O q' t' Hq' Ht') as [V' [f' Ef']]. apply same_unknown_id in E; [|assumption|assumption].
  destruct E as [E1 E2]. unfold unk. rewrite Ef, Ef' in *. cbn [option_map] in E2. injection E2 as ->.
  destruct E1 as [[F F']| ->]; [apply P; assumption|reflexivity].
Qed.

(** The level of the equation whose unknown is [t]. *)
Lemma term_level : forall q t q', In q (all_eqs s) -> In t (e_terms q) -> In q' (all_eqs s) -> tid t = tid (e_index q') ->
  total (cfg (t_cfg t)) = total (cfg (t_cfg (e_index q'))).
Proof.
  intros q t q' Hq Ht Hq' E. destruct (so_valid s O q t Hq (or_intror Ht)) as [V [f Ef]].
  destruct (so_valid s O q' _ Hq' (or_introl eq_refl)) as [V' [f' Ef']]. apply same_unknown_id in E; [|assumption|assumption].
  destruct E as [[[F F']|E1] _]; [|rewrite E1; reflexivity].
  rewrite (proj2 (valid_total_free _ V) F), (proj2 (valid_total_free _ V') F'). reflexivity.
Qed.

Lemma level_NoDup : forall k es, In (k, es) (s_eqs s) -> NoDup (index_ids es).
Proof.
  intros k es H. pose proof (so_nodup s O) as N. unfold all_eqs, index_ids in *. revert H N. generalize (s_eqs s). clear. intros L.
  induction L as [|kv r IH]; intros H N; [destruct H|]. cbn [flat_map] in N. rewrite map_app in N. apply NoDup_app_parts in N.
  destruct H as [->|H]; [apply N|apply IH; [assumption|apply N]].
Qed.

(** Terms of total [n] are unknowns of level [n]. *)
Lemma term_in_level : forall q t n es, In q (all_eqs s) -> In t (e_terms q) -> total (cfg (t_cfg t)) = n -> In (n, es) (s_eqs s) ->
  exists q', In q' es /\ tid t = tid (e_index q').
Proof.
  intros q t n es Hq Ht En Hn. pose proof (so_closed s O q t Hq Ht) as I. unfold index_ids in I. apply in_map_iff in I.
  destruct I as [q' [E Hq']]. exists q'. split; [|auto]. pose proof Hq' as Hq2. apply In_all in Hq'. destruct Hq' as [k [es' [H1 H2]]].
  rewrite (term_level q t q' Hq Ht Hq2 (eq_sym E)) in En. rewrite (proj1 (so_level s O k es' q' H1 H2)) in En. subst k.
  rewrite (level_unique n es es' Hn H1). exact H2.
Qed.

Lemma bias_level : forall {K : cring} (e : env T K) k es q, In (k, es) (s_eqs s) -> In q es ->
  bias e q = if k =? 0 then G0 e else k0.
Proof.
  intros K e k es q H1 H2. destruct (so_green s O) as [l [q0 [El [_ [G1 G2]]]]]. unfold bias.
  pose proof H1 as H0. rewrite El in H1. apply in_app_iff in H1. destruct H1 as [H1|[H1|[]]].
  - rewrite (G2 q) by (apply in_flat_map; exists (k, es); auto).
    assert (k <> 0); [|destruct (Z.eqb_spec k 0); [contradiction|reflexivity]]. intros ->.
    pose proof keys_nodup as N. rewrite El, map_app in N. cbn [map fst] in N.
    apply NoDup_remove_2 in N. rewrite app_nil_r in N. apply N. apply (in_map fst) in H1. exact H1.
  - injection H1 as <- <-. destruct H2 as [<-|[]]. rewrite G1. reflexivity.
Qed.

End Facts.
