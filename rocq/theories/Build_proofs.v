(** Equations on the heap stand for those of Equation.v, and each has arrays of
    its own. *)
From Coq Require Import String ZArith List Arith Bool Lia.
From Verif Require Import Base NdArray Config Model Space Render Term Equation System NdArray_proofs Heap Heap_proofs Objects_proofs.
Import ListNotations.
Open Scope list_scope.
Open Scope nat_scope.

Section Build.
Context {T : Type}.
Implicit Types (h : heap T).

(** * The arrays of a term: [g_arg], which is changed in place when a delta is
    chosen, and all others *)
Definition tg h (l : loc) : list loc := match as_ is_term h l with Some o => olist (ot_g o) | None => [] end.
Definition hr h (l : loc) : list loc := match cell_at h l with Some (CHterm _ p q _ _ _ _) => [p; q] | _ => [] end.
Definition tr h (l : loc) : list loc :=
  match as_ is_term h l with Some o => ot_exp o :: olist (ot_f o) ++ flat_map (hr h) (olist (ot_h o)) | None => [] end.

Section Iso.
Variables (P : loc -> Prop) (p : loc -> loc) (h h' : heap T).
Hypothesis I : iso P p h h'.

Lemma iso_tg : forall l, P l -> tg h' (p l) = map p (tg h l) /\ (forall x, In x (tg h l) -> P x).
Proof.
  intros l H. unfold tg, as_. rewrite (iso_cell P p h h' I l H). destruct (cell_at h l) as [[]|] eqn:E; try (split; [reflexivity|cbn; tauto]); cbn.
  split; [destruct (ot_g o); reflexivity|]. intros x X. apply (iso_refs P p h h' I l _ x H E). cbn. rewrite !in_app_iff. tauto.
Qed.

Lemma iso_hr : forall l, P l -> hr h' (p l) = map p (hr h l) /\ (forall x, In x (hr h l) -> P x).
Proof.
  intros l H. unfold hr. rewrite (iso_cell P p h h' I l H). destruct (cell_at h l) as [[]|] eqn:E; try (split; [reflexivity|cbn; tauto]); cbn.
  split; [reflexivity|]. intros x X. apply (iso_refs P p h h' I l _ x H E). exact X.
Qed.

Lemma iso_tr : forall l, P l -> tr h' (p l) = map p (tr h l) /\ (forall x, In x (tr h l) -> P x).
Proof.
  intros l H. unfold tr, as_. rewrite (iso_cell P p h h' I l H). destruct (cell_at h l) as [[]|] eqn:E; try (split; [reflexivity|cbn; tauto]); cbn.
  assert (R : forall y, In y (refs (CTerm o)) -> P y) by (intros y Y; apply (iso_refs P p h h' I l _ y H E Y)). cbn [refs] in R. split.
  - rewrite map_app. f_equal. f_equal; [destruct (ot_f o); reflexivity|]. destruct (ot_h o) as [hl|]; [|reflexivity]. cbn. rewrite !app_nil_r.
    apply iso_hr. apply R. cbn. auto.
  - intros x [<-|X]; [apply R; cbn; auto|]. apply in_app_or in X as [X|X].
    + apply R. cbn. rewrite !in_app_iff. tauto.
    + destruct (ot_h o) as [hl|]; [|destruct X]. cbn in X. rewrite app_nil_r in X. apply (iso_hr hl); [|exact X]. apply R. cbn. auto.
Qed.

Lemma iso_flat : forall (F F' : loc -> list loc), (forall l, P l -> F' (p l) = map p (F l) /\ (forall x, In x (F l) -> P x)) ->
  forall ls, (forall l, In l ls -> P l) -> flat_map F' (map p ls) = map p (flat_map F ls) /\ (forall x, In x (flat_map F ls) -> P x).
Proof.
  intros F F' H. induction ls as [|l ls IH]; intros L; [split; [reflexivity|intros x []]|]. destruct (H l (L l (or_introl eq_refl))) as [A B].
  destruct IH as [A' B']; [intros; apply L; right; assumption|]. cbn. rewrite map_app, A, A'. split; [reflexivity|].
  intros x X. apply in_app_or in X as [X|X]; auto.
Qed.
End Iso.

Lemma keep_iso : forall h h' l, sealed 0 h -> keeps (List.length h) h h' -> l < List.length h ->
  a_term h' l = a_term h l /\ tg h' l = tg h l /\ tr h' l = tr h l /\ (forall x, In x (tg h l) -> x < List.length h) /\ (forall x, In x (tr h l) -> x < List.length h).
Proof.
  intros h h' l S K L. pose proof (iso_keeps h h' S K) as I.
  split; [apply (iso_term _ _ _ _ I); exact L|]. destruct (iso_tg _ _ _ _ I l L) as [A A']. destruct (iso_tr _ _ _ _ I l L) as [B B'].
  rewrite map_id in A, B. auto.
Qed.

Lemma keep_flat : forall h h' (F F' : loc -> list loc) ls, (forall l, In l ls -> F' l = F l) -> flat_map F' ls = flat_map F ls.
Proof. intros h h' F F'. induction ls as [|l ls IH]; intros H; [reflexivity|]. cbn. rewrite H by (left; reflexivity). f_equal. apply IH. intros. apply H. right. assumption. Qed.

(** The terms of an equation, above [q]. *)
Record built (q : nat) h (ls : list loc) (ts : list (term T)) : Prop := {
  b_val : Forall2 (fun l t => a_term h l = Some t) ls ts;
  b_nd : NoDup ls;
  b_lo : forall l, In l ls -> q <= l;
  b_g : forall x, In x (flat_map (tg h) ls) -> q <= x;
  b_gnd : NoDup (flat_map (tg h) ls);
  b_dis : forall x, In x (flat_map (tg h) ls) -> ~ In x (flat_map (tr h) ls) }.

(** A new term: everything changed in place is above [n]. *)
Record fresh_term (q n : nat) h (l : loc) (t : term T) : Prop := {
  f_val : a_term h l = Some t;
  f_lo : n <= l;
  f_g : forall x, In x (tg h l) -> n <= x;
  f_gnd : NoDup (tg h l);
  f_dis : forall x, In x (tg h l) -> ~ In x (tr h l);
  f_r : forall x, In x (tr h l) -> n <= x \/ x < q }.

Lemma val_lt : forall h l (t : term T), a_term h l = Some t -> l < List.length h.
Proof. intros h l t E. unfold a_term in E. destruct (cell_at h l) eqn:F; [|discriminate]. eapply at_lt, F. Qed.

Lemma built_lt : forall q h ls ts l, built q h ls ts -> In l ls -> l < List.length h.
Proof.
  intros q h ls ts l B H. destruct B as [V _ _ _ _ _]. induction V as [|x y ls ts E V IH]; [destruct H|]. destruct H as [<-|H]; auto. eapply val_lt, E.
Qed.

Lemma built_nil : forall q h, built q h [] [].
Proof. intros. constructor; cbn; try constructor; tauto. Qed.

Lemma built_keep : forall q h h' ls ts, sealed 0 h -> keeps (List.length h) h h' -> built q h ls ts -> built q h' ls ts.
Proof.
  intros q h h' ls ts S K B. assert (LT := fun l => built_lt q h ls ts l B).
  assert (EG : flat_map (tg h') ls = flat_map (tg h) ls) by (apply (keep_flat h h'); intros l H; apply (keep_iso h h' l S K (LT l H))).
  assert (ER : flat_map (tr h') ls = flat_map (tr h) ls) by (apply (keep_flat h h'); intros l H; apply (keep_iso h h' l S K (LT l H))).
  destruct B. constructor; rewrite ?EG, ?ER; auto. clear - b_val0 S K LT. induction b_val0 as [|x y ls ts E V IH]; [constructor|]. constructor.
  - rewrite (proj1 (keep_iso h h' x S K (LT x (or_introl eq_refl)))). exact E.
  - apply IH. intros. apply LT. right. assumption.
Qed.

Lemma built_add : forall q h h' ls ts l t, sealed 0 h -> keeps (List.length h) h h' -> q <= List.length h -> built q h ls ts ->
  fresh_term q (List.length h) h' l t -> built q h' (ls ++ [l]) (ts ++ [t]).
Proof.
  intros q h h' ls ts l t S K Q B F. assert (LT := fun l => built_lt q h ls ts l B). pose proof (built_keep q h h' ls ts S K B) as B'.
  assert (GL : forall x, In x (flat_map (tg h') ls) -> x < List.length h).
  { intros x X. apply in_flat_map in X as [y [Y X]]. destruct (keep_iso h h' y S K (LT y Y)) as (_ & E & _ & L & _). rewrite E in X. auto. }
  assert (RL : forall x, In x (flat_map (tr h') ls) -> x < List.length h).
  { intros x X. apply in_flat_map in X as [y [Y X]]. destruct (keep_iso h h' y S K (LT y Y)) as (_ & _ & E & _ & L). rewrite E in X. auto. }
  destruct B' as [V N L G GN D]. destruct F as [fv fl fg fn fd fr]. constructor.
  - apply Forall2_app; [exact V|]. constructor; [exact fv|constructor].
  - apply NoDup_app; [exact N|constructor; [intros []|constructor]|]. intros x X [<-|[]]. specialize (LT l X). lia.
  - intros x X. apply in_app_or in X as [X|[<-|[]]]; [auto|]. lia.
  - intros x. rewrite flat_map_app. cbn. rewrite app_nil_r, in_app_iff. intros [X|X]; [auto|]. specialize (fg x X). lia.
  - rewrite flat_map_app. cbn. rewrite app_nil_r. apply NoDup_app; auto. intros x X Y. specialize (fg x Y). specialize (GL x X). lia.
  - intros x. rewrite !flat_map_app. cbn. rewrite !app_nil_r, !in_app_iff. intros [X|X] [Y|Y].
    + exact (D x X Y).
    + specialize (fr x Y). specialize (GL x X). specialize (G x X). lia.
    + specialize (RL x Y). specialize (fg x X). lia.
    + exact (fd x X Y).
Qed.

Lemma own_fresh : forall q n h l t, own q n h l t -> fresh_term q n h l t.
Proof.
  intros q n h l t (kd & c & la & hl & cst & el & f & g & fs & ml & cf & ht & e & fv & gv & -> & W).
  assert (EG : tg h l = [g]) by (unfold tg; rewrite (as_term _ _ _ (w_t W)); reflexivity).
  destruct (w_h W) as (x & y & L1 & L2 & L3 & E & _).
  assert (ER : tr h l = [el; f; x; y]) by (unfold tr; rewrite (as_term _ _ _ (w_t W)); cbn; unfold hr; rewrite E; reflexivity).
  pose proof (w_n W) as WN. pose proof (w_d W) as WD. pose proof (w_q W) as WQ. constructor; rewrite ?EG, ?ER; cbn.
  - apply (own_value W).
  - lia.
  - intros z [<-|[]]. lia.
  - constructor; [intros []|constructor].
  - intros z [<-|[]]. lia.
  - intros z Z. intuition (subst; lia).
Qed.

Lemma own_le : forall q n n' h l (t : term T), q <= n' -> n' <= n -> own q n h l t -> own q n' h l t.
Proof.
  intros q n n' h l t Q L (kd & c & la & hl & cst & el & f & g & fs & ml & cf & ht & e & fv & gv & -> & W).
  unfold own. do 15 eexists. split; [reflexivity|]. pose proof (w_n W). destruct W. constructor; try eassumption. lia.
Qed.

(** * Building the terms of one equation *)
Definition grown (q n : nat) h (ls : list loc) (ts : list (term T)) : Prop :=
  (ls = [] /\ ts = []) \/ (exists l t, ls = [l] /\ ts = [t] /\ fresh_term q n h l t).

Lemma grown_built : forall q h h' us vs ls ts, sealed 0 h -> keeps (List.length h) h h' -> q <= List.length h -> built q h us vs ->
  grown q (List.length h) h' ls ts -> built q h' (us ++ ls) (vs ++ ts).
Proof.
  intros q h h' us vs ls ts S K Q B [[-> ->]|(l & t & -> & -> & F)].
  - rewrite !app_nil_r. eapply built_keep; eassumption.
  - eapply built_add; eassumption.
Qed.

Lemma sim_grown : forall q b h us vs (p : prog T (list loc)) r, sealed 0 h -> q <= List.length h -> built q h us vs ->
  sim (List.length h) b p h r (grown q (List.length h)) -> sim q b p h r (fun h' l v => built q h' (us ++ l) (vs ++ v)).
Proof.
  intros q b h us vs p r S Q B M. eapply sim_le; [exact Q|]. eapply sim_post; [exact M|]. intros h1 a v K G H. eapply grown_built; eassumption.
Qed.

Section Terms.
(** The heap when the index term and the model of the equation have been
    copied: everything the terms are made from is below [q]. *)
Variables (b q : nat) (hB : heap T) (ml il : loc) (m : model T) (oi : oterm T) (la : loc) (mm mo : Z) (a : nd).
Hypothesis (Hq : q = List.length hB) (Bq : b <= q) (SB : sealed 0 hB) (Em : a_model hB ml = Some m) (Lm : ml < q) (Bm : b <= ml)
  (Ei : cell_at hB il = Some (CTerm oi)) (Ec : cell_at hB (ot_cfg oi) = Some (CConfig la mm mo)) (Ea : cell_at hB la = Some (CNd a)).

Lemma kept_model : forall h, keeps q hB h -> a_model h ml = Some m.
Proof. intros h K. rewrite <- Em. apply (iso_model _ _ _ _ (iso_keeps hB h SB ltac:(rewrite <- Hq; exact K))). rewrite <- Hq. exact Lm. Qed.

Lemma kept_array : forall h, keeps q hB h -> index_array il h = (h, Ok la) /\ cell_at h la = Some (CNd a).
Proof.
  intros h K. assert (X : forall l c, cell_at hB l = Some c -> cell_at h l = Some c).
  { intros l c E. eapply keeps_at; [exact K| |exact E]. rewrite Hq. eapply at_lt, E. }
  split; [|auto]. unfold index_array, pbind, load, as_. rewrite (X _ _ Ei). cbn [opt_bind is_term]. rewrite (X _ _ Ec). reflexivity.
Qed.

Lemma keeps_q : forall h, keeps q hB h -> q <= List.length h.
Proof. intros h [L _]. rewrite Hq. exact L. Qed.

(** Copying the model of the equation for a term *)
Lemma copy_model : forall n h, keeps q hB h -> good b h -> exists h' m', deepcopy ml h = (h', Ok m') /\ keeps n h h' /\ good b h' /\ a_model h' m' = Some m /\ List.length h <= m' < List.length h'.
Proof.
  intros n h K [G0 G]. pose proof (keeps_q h K) as L. destruct (deepcopy_spec h ml G0 ltac:(lia)) as (h' & m' & P & p & E & C & SE).
  exists h', m'. split; [exact E|]. split; [apply (cp_below _ _ _ _ _ _ C)|]. split; [split; apply SE; auto; lia|].
  split; [|rewrite (cp_loc _ _ _ _ _ _ C); apply (cp_in _ _ _ _ _ _ C), (cp_root _ _ _ _ _ _ C)].
  rewrite (cp_loc _ _ _ _ _ _ C), (iso_model _ _ _ _ (cp_iso _ _ _ _ _ _ C) ml (cp_root _ _ _ _ _ _ C)). apply kept_model, K.
Qed.

Lemma sim_finish : forall n h h0 tl t, b <= n -> n = List.length h0 -> keeps q hB h0 -> keeps n h0 h -> good b h -> own q n h tl t ->
  sim n b (o_finish ml tl) h (finish m t) (grown q n).
Proof.
  intros n h h0 tl t BN Hn K0 K G W. unfold o_finish, finish. assert (QN : q <= n) by (rewrite Hn; apply keeps_q, K0).
  eapply sim_bind; [eapply sim_simplify; eassumption|]. intros h1 [] t' K1 G1 W1.
  pose proof (own_fresh _ _ _ _ _ W1) as F.
  eapply sim_load; [apply kept_model; eapply keeps_trans; [exact K0|]; eapply keeps_le; [exact QN|]; eapply keeps_trans; eassumption|].
  eapply sim_load; [apply F|]. apply sim_pure; [exact G1|]. intros [] _. apply sim_pure; [exact G1|]. intros leg _.
  apply sim_ret; [exact G1|]. destruct leg; [right|left; auto]. eauto.
Qed.

(** A term made from a copy of the array and of the model, then changed. *)
Lemma sim_make : forall h kd hl ht mult x, keeps q hB h -> good b h -> low q hB hl ht -> b <= hl -> kd = KAnnih \/ kd = KCreat ->
  forall h1, keeps (List.length h) h h1 -> good b h1 -> forall lb m', cell_at h1 lb = Some (CNd a) -> a_model h1 m' = Some m -> m' < List.length h1 -> b <= m' ->
  sim (List.length h) b (t <~ o_nonindex_term kd lb hl m' mult ;; _ <~ o_step t x ;; o_finish ml t) h1
    (t <- nonindex_term kd a ht (h_freqs (m_ham m)) mult ;; t' <- step t x ;; finish m t') (grown q (List.length h)).
Proof.
  intros h kd hl ht mult x K G Lw Bh KD h1 K1 G1 lb m' Eb Em' Lm' Bm'.
  assert (QL : q <= List.length h) by (apply keeps_q, K). assert (L1 : List.length h <= List.length h1) by apply K1.
  assert (K01 : keeps q hB h1) by (eapply keeps_trans; [exact K|]; eapply keeps_le; [exact QL|exact K1]).
  eapply sim_bind; [eapply sim_le; [exact L1|]; apply (sim_nonindex q); try assumption; try lia; try apply G1; try (eapply low_keeps; [exact K01|exact Lw])|].
  intros h2 t tv K2 G2 (W & Hk & _).
  apply (own_le q _ (List.length h)) in W; [|lia|lia].
  eapply sim_bind; [eapply sim_step; [|exact G2|exact W|rewrite Hk; exact KD]; lia|]. intros h3 [] tv' K3 G3 W3.
  eapply (sim_finish _ _ h); auto; try lia. eapply keeps_trans; [exact K1|]. eapply keeps_trans; eassumption.
Qed.

Lemma sim_annih : forall hl ht x h us vs, low q hB hl ht -> b <= hl -> keeps q hB h -> good b h -> built q h us vs ->
  sim q b (o_annih_at ml il hl x) h (annih_at m a ht x) (fun h' l v => built q h' (us ++ l) (vs ++ v)).
Proof.
  intros hl ht x h us vs Lw Bh K G B. assert (QL := keeps_q h K). apply sim_grown; auto; [apply G|]. unfold o_annih_at, annih_at.
  destruct (kept_array h K) as [EI EA]. eapply sim_det; [exact EI|apply keeps_refl|]. eapply sim_load; [apply nd_of; exact EA|].
  eapply sim_load; [eapply low_hterm, low_keeps; [exact K|exact Lw]|]. cbn zeta. destruct (_ =? 0)%Z; [apply sim_ret; [exact G|left; auto]|].
  eapply sim_det; [apply copy_nd_run, nd_of; exact EA|apply keeps_app|].
  assert (G1 : good b (h ++ [CNd a])) by (apply good_alloc; [exact G|apply no_refs_nd]).
  assert (K1 : keeps q hB (h ++ [CNd a])) by (eapply keeps_trans; [exact K|apply keeps_app]).
  destruct (copy_model (S (List.length h)) _ K1 G1) as (h2 & m' & E & K2 & G2 & Em' & Lm').
  eapply sim_det; [exact E|eapply keeps_le; [|exact K2]; lia|]. rewrite app_length in Lm'. cbn in Lm'.
  apply (sim_make h); auto; try lia.
  - eapply keeps_trans; [apply keeps_app|]. eapply keeps_le; [|exact K2]. lia.
  - eapply keeps_at; [exact K2|lia|apply at_new].
Qed.

Lemma sim_creat : forall hl ht x h us vs, low q hB hl ht -> b <= hl -> keeps q hB h -> good b h -> built q h us vs ->
  sim q b (o_creat_at ml il hl x) h (creat_at m a ht x) (fun h' l v => built q h' (us ++ l) (vs ++ v)).
Proof.
  intros hl ht x h us vs Lw Bh K G B. assert (QL := keeps_q h K). apply sim_grown; auto; [apply G|]. unfold o_creat_at, creat_at.
  destruct (kept_array h K) as [EI EA]. eapply sim_det; [exact EI|apply keeps_refl|].
  eapply sim_det; [apply copy_nd_run, nd_of; exact EA|apply keeps_app|].
  assert (G1 : good b (h ++ [CNd a])) by (apply good_alloc; [exact G|apply no_refs_nd]).
  assert (K1 : keeps q hB (h ++ [CNd a])) by (eapply keeps_trans; [exact K|apply keeps_app]).
  destruct (copy_model (S (List.length h)) _ K1 G1) as (h2 & m' & E & K2 & G2 & Em' & Lm').
  eapply sim_det; [exact E|eapply keeps_le; [|exact K2]; lia|]. rewrite app_length in Lm'. cbn in Lm'.
  apply (sim_make h); auto; try lia.
  - eapply keeps_trans; [apply keeps_app|]. eapply keeps_le; [|exact K2]. lia.
  - eapply keeps_at; [exact K2|lia|apply at_new].
Qed.

Lemma Forall2_same : forall A (Q : A -> A -> Prop) l, (forall x, In x l -> Q x x) -> Forall2 Q l l.
Proof. induction l as [|x l IH]; intros H; constructor; [apply H; left; reflexivity|]. apply IH. intros. apply H. right. assumption. Qed.

Lemma sim_concat : forall A B n b' (f : A -> prog T (list loc)) (g : B -> result (list (term T))) xs ys h us vs,
  sim n b' (each f xs) h (mapM g ys) (fun h' l v => built q h' (us ++ concat l) (vs ++ concat v)) ->
  sim n b' (ls <~ each f xs ;; ret (concat ls)) h (ls <- mapM g ys ;; Ok (concat ls)) (fun h' l v => built q h' (us ++ l) (vs ++ v)).
Proof. intros. eapply sim_bind; [eassumption|]. intros h1 l v _ G1 B1. apply sim_ret; [exact G1|exact B1]. Qed.

Lemma sim_terms_of : forall hl ht h us vs, low q hB hl ht -> b <= hl -> keeps q hB h -> good b h -> built q h us vs ->
  sim q b (o_terms_of ml il hl) h (terms_of m a ht) (fun h' l v => built q h' (us ++ l) (vs ++ v)).
Proof.
  intros hl ht h us vs Lw Bh K G B. unfold o_terms_of, terms_of. destruct (kept_array h K) as [EI EA].
  eapply sim_load; [apply kept_model; exact K|]. eapply sim_det; [exact EI|apply keeps_refl|]. eapply sim_load; [apply nd_of; exact EA|].
  eapply sim_load; [eapply low_hterm, low_keeps; [exact K|exact Lw]|]. apply sim_pure; [exact G|]. intros [] _.
  assert (Z0 : forall h' : heap T, built q h us vs -> sim q b (ret []) h (Ok []) (fun h' l v => built q h' (us ++ l) (vs ++ v))).
  { intros _ _. apply sim_ret; [exact G|]. rewrite !app_nil_r. exact B. }
  destruct (ht_dag ht).
  - destruct (nth_error _ _) as [N|]; [|apply sim_err; exact G]. destruct (_ <? _)%Z; [apply Z0; auto|].
    destruct (absolute_extent m) as [ae|]; [|apply sim_err; exact G]. apply sim_pure; [exact G|]. intros [] _. apply sim_concat.
    apply (sim_each _ _ _ _ _ _ _ _ (fun h l v => built q h l v) hB); auto. apply Forall2_same. intros x _ h' us' vs' K' G' B'. apply sim_creat; assumption.
  - apply sim_concat.
    apply (sim_each _ _ _ _ _ _ _ _ (fun h l v => built q h l v) hB); auto. apply Forall2_same. intros x _ h' us' vs' K' G' B'. apply sim_annih; assumption.
Qed.

Lemma model_low : good b hB -> exists hs, as_ is_model hB ml = Some hs /\ Forall2 (fun hl ht => low q hB hl ht /\ b <= hl) hs (h_terms (m_ham m)).
Proof.
  intros [_ G]. pose proof Em as E. unfold a_model in E. unfold as_. destruct (cell_at hB ml) as [[]|] eqn:F; try discriminate.
  destruct (opt_map (a_hterm hB) terms) as [hts|] eqn:O; [|discriminate]. cbn in E. injection E as <-. cbn. exists terms. split; [reflexivity|].
  pose proof (SB ml _ (Nat.le_0_l _) F) as R. pose proof (G ml _ Bm F) as RB. cbn [refs] in R, RB. apply opt_map_some in O. clear F Em. revert R RB.
  induction O as [|hl ht hs hts E O IH]; intros R RB; constructor.
  - split; [|apply RB; left; reflexivity]. unfold a_hterm in E. destruct (cell_at hB hl) as [[]|] eqn:F; try discriminate.
    destruct (a_vec hB psi) as [u|] eqn:U; [|discriminate]. destruct (a_vec hB phi) as [v|] eqn:V; [|discriminate]. cbn in E. injection E as <-.
    exists psi, phi. pose proof (SB hl _ (Nat.le_0_l _) F) as R'. cbn [refs] in R'. rewrite Hq.
    split; [apply R; left; reflexivity|]. split; [apply R'; left; reflexivity|]. split; [apply R'; right; left; reflexivity|]. cbn.
    split; [exact F|]. unfold a_vec in U, V. split; [destruct (cell_at hB psi) as [[]|]; congruence|destruct (cell_at hB phi) as [[]|]; congruence].
  - apply IH; intros; [apply R|apply RB]; right; assumption.
Qed.

Lemma Forall2_imp : forall A B (Q Q' : A -> B -> Prop) l l', (forall x y, Q x y -> Q' x y) -> Forall2 Q l l' -> Forall2 Q' l l'.
Proof. intros A B Q Q' l l' H F. induction F; constructor; auto. Qed.

Lemma sim_initialize : good b hB -> sim q b (o_initialize_terms ml il) hB (initialize_terms m a) (built q).
Proof.
  intros G. unfold o_initialize_terms, initialize_terms. destruct (model_low G) as (hs & E & F). eapply sim_load; [exact E|].
  eapply sim_post; [apply (sim_concat _ _ _ _ _ _ _ _ _ [] [])|intros h1 l v _ _ H; exact H].
  apply (sim_each _ _ _ _ _ _ _ _ (fun h l v => built q h l v) hB); [|apply keeps_refl|exact G|apply built_nil].
  eapply Forall2_imp; [|exact F]. intros hl ht [L1 L2] h us vs K G' B. apply sim_terms_of; assumption.
Qed.

Ltac growth := apply good_app; [assumption|lia|]; cbn; intros ?c ?C; repeat (destruct C as [<-|C]); try (destruct C); cbn; intros ?y ?Y; repeat (destruct Y as [<-|Y]); try (destruct Y); lia.

(** Terms of the equation of motion *)
Lemma sim_eom : forall h l hl m' c ht, b <= List.length h -> q <= List.length h -> good b h -> cell_at h l = Some (CNd c) -> low q h hl ht ->
  m' < List.length h -> b <= hl -> b <= m' ->
  sim (List.length h) b (o_eom_term l hl m') h (eom_term c ht) (fresh_term q (List.length h)).
Proof.
  clear Hq SB Em Lm Ei Ec Ea. intros h l hl m' c ht BL QL G El Lw Lm' Bh Bm'. unfold o_eom_term, eom_term.
  assert (HL : hl < List.length h) by (destruct Lw as (p & p' & X & _); lia).
  eapply sim_bind; [apply sim_config; [exact BL|exact G|apply nd_of; exact El]|]. intros h1 x cf K1 G1 (-> & -> & ->). clear K1 G1.
  eapply sim_new; [apply zero_shift_run; apply cfg_plus|]; cbn [app List.length].
  eapply sim_new; [eapply get_psi_run, low_app, Lw|]; cbn [app List.length].
  eapply sim_new; [eapply get_phi_run, low_app, Lw|]; cbn [app List.length].
  eapply sim_diff; [growth|apply vec_plus with (i := 3); reflexivity|apply vec_plus with (i := 4); reflexivity|]. intros d _. cbn [app List.length].
  eapply sim_new; [apply copy_vec_run; apply vec_plus with (i := 5); reflexivity|]; cbn [app List.length].
  eapply sim_new; [eapply get_phi_run, low_app, Lw|]; cbn [app List.length].
  eapply sim_new; [apply copy_vec_run; apply vec_plus with (i := 7); reflexivity|]; cbn [app List.length].
  eapply sim_load; [eapply low_hterm, low_app, Lw|].
  unfold sim, alloc. cbn [fst snd]. split; [apply keeps_app|]. rewrite <- app_assoc. cbn [app]. split; [growth|].
  rewrite app_length. cbn [List.length].
  set (xs := [CNd c; _; _; _; _; _; _; _; _; _]).
  assert (ET : cell_at (h ++ xs) (List.length h + 9) = Some (CTerm (mkOterm KEom (List.length h + 1) (Some hl) (Some (ht_coupling ht, 1%Z)) (List.length h + 6) (Some (List.length h + 8)) None [] (Some m')))) by (rewrite at_plus; reflexivity).
  assert (LX : low q (h ++ xs) hl ht) by (apply low_app, Lw).
  assert (EG : tg (h ++ xs) (List.length h + 9) = []) by (unfold tg; rewrite (as_term _ _ _ ET); reflexivity).
  constructor; rewrite ?EG; try (intros y []; fail); try apply NoDup_nil; try lia.
  - unfold a_term. rewrite ET. cbn [ot_cfg ot_h ot_exp ot_f ot_g ot_kind ot_const ot_fshift maybe].
    unfold xs at 1. rewrite cfg_plus. rewrite (low_hterm _ _ _ _ LX).
    rewrite (vec_plus h xs 6 d eq_refl), (vec_plus h xs 8 (ht_phi ht) eq_refl). reflexivity.
  - destruct LX as (u & v & L1 & L2 & L3 & EH & _).
    unfold tr. rewrite (as_term _ _ _ ET). cbn. unfold hr. rewrite EH. cbn. intros y Y. intuition (subst; lia).
Qed.

Lemma fill_zeros : forall nt d t, fill (zeros (nt :: repeat 1 d)) t = single_phonon nt d t.
Proof.
  intros nt d t. unfold fill, single_phonon. cbn [shp zeros tab]. unfold tab. f_equal. apply map_ext. intros i. destruct (Nat.eqb (hd 0 i) t); [reflexivity|].
  unfold get. cbn [dat zeros tab]. generalize (ravel (shp (zeros (nt :: repeat 1 d))) i). generalize (all_idx (nt :: repeat 1 d)).
  induction l as [|x l IH]; intros [|k]; cbn; auto.
Qed.

Lemma sim_green : a = zeros (m_ntypes m :: repeat 1 (h_dim (m_ham m))) ->
  forall hl ht h us vs, low q hB hl ht -> b <= hl -> keeps q hB h -> good b h -> built q h us vs ->
  sim q b (o_green_term ml il hl) h (green_term m ht) (fun h' l v => built q h' (us ++ l) (vs ++ v)).
Proof.
  intros Ha hl ht h us vs Lw Bh K G B. assert (QL := keeps_q h K). apply sim_grown; auto; [apply G|]. unfold o_green_term, green_term.
  eapply sim_load; [eapply low_hterm, low_keeps; [exact K|exact Lw]|]. destruct (ht_dag ht); [|apply sim_ret; [exact G|left; auto]].
  destruct (kept_array h K) as [EI EA]. eapply sim_det; [exact EI|apply keeps_refl|].
  eapply sim_det; [apply copy_nd_run, nd_of; exact EA|apply keeps_app|].
  eapply sim_load; [apply nd_of, at_new|].
  assert (G1 : good b (h ++ [CNd a])) by (apply good_alloc; [exact G|apply no_refs_nd]).
  assert (HS : hd 0 (shp a) = m_ntypes m) by (rewrite Ha; reflexivity). rewrite HS. apply sim_pure; [exact G1|]. intros [] _.
  assert (FA : fill a (ht_index ht) = single_phonon (m_ntypes m) (h_dim (m_ham m)) (ht_index ht)) by (rewrite Ha; apply fill_zeros). rewrite FA.
  set (h1 := setn (h ++ [CNd a]) (List.length h) (CNd (single_phonon (m_ntypes m) (h_dim (m_ham m)) (ht_index ht)))).
  assert (E1 : cell_at h1 (List.length h) = Some (CNd (single_phonon (m_ntypes m) (h_dim (m_ham m)) (ht_index ht)))).
  { apply at_set. rewrite app_length. cbn. lia. }
  assert (L1 : List.length h1 = S (List.length h)) by (unfold h1; rewrite len_set, app_length; cbn; lia).
  assert (Kh : keeps (List.length h) h h1) by (eapply keeps_trans; [apply keeps_app|apply keeps_set; lia]).
  assert (G2 : good b h1) by (apply good_set; [exact G1|apply no_refs_nd]).
  eapply sim_store; [lia|]. fold h1.
  assert (K1 : keeps q hB h1) by (eapply keeps_trans; [exact K|eapply keeps_le; [exact QL|exact Kh]]).
  destruct (copy_model (S (List.length h)) h1 K1 G2) as (h2 & m' & E & K2 & G3 & Em' & Lm').
  eapply sim_det; [exact E|eapply keeps_le; [|exact K2]; lia|].
  assert (K02 : keeps q hB h2) by (eapply keeps_trans; [exact K1|eapply keeps_le; [|exact K2]; lia]).
  eapply sim_bind.
  - eapply sim_le; [|apply sim_eom with (c := single_phonon (m_ntypes m) (h_dim (m_ham m)) (ht_index ht)) (ht := ht)]; auto; try lia.
    + eapply keeps_at; [exact K2|lia|exact E1].
    + eapply low_keeps; [exact K02|exact Lw].
  - intros h3 t tv K3 G4 F. apply sim_ret; [exact G4|]. right. exists t, tv. split; [reflexivity|]. split; [reflexivity|].
    destruct F as [fv fl fg fn fd fr]. constructor; auto; try lia; intros x X; [specialize (fg x X)|specialize (fr x X)]; lia.
Qed.

Lemma sim_greens : a = zeros (m_ntypes m :: repeat 1 (h_dim (m_ham m))) -> good b hB ->
  sim q b (o_green_terms ml il) hB (ls <- mapM (green_term m) (h_terms (m_ham m)) ;; Ok (concat ls)) (built q).
Proof.
  intros Ha G. unfold o_green_terms. destruct (model_low G) as (hs & E & F). eapply sim_load; [exact E|].
  eapply sim_post; [apply (sim_concat _ _ _ _ _ _ _ _ _ [] [])|intros h1 l v _ _ H; exact H].
  apply (sim_each _ _ _ _ _ _ _ _ (fun h l v => built q h l v) hB); [|apply keeps_refl|exact G|apply built_nil].
  eapply Forall2_imp; [|exact F]. intros hl ht [L1 L2] h us vs K G' B. apply sim_green; assumption.
Qed.

End Terms.
End Build.
