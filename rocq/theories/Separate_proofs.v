(** Equations on the heap: what is built, and that choosing a delta for one
    changes nothing else. *)
From Coq Require Import String ZArith List Arith Bool Lia.
From Verif Require Import Base NdArray Config Model Space Render Term Equation System NdArray_proofs Heap Heap_proofs Objects_proofs Build_proofs.
Import ListNotations.
Open Scope list_scope.
Open Scope nat_scope.

Section Separate.
Context {T : Type}.
Implicit Types (h : heap T).

(** * Dictionaries of arrays *)
Definition drel h (D : sdict (list loc)) (V : sdict (list vec)) : Prop :=
  Forall2 (fun a b => fst a = fst b /\ Forall2 (fun x v => a_vec h x = Some v) (snd a) (snd b)) D V.
Definition items h (D : sdict loc) : list loc := flat_map (fun kl => match as_ is_list h (snd kl) with Some xs => xs | None => [] end) D.
Definition dr h (d : loc) : list loc := match as_ is_dict h d with Some D => items h D | None => [] end.

Lemma sappend_rel : forall h k x v D V, a_vec h x = Some v -> drel h D V -> drel h (sappend k x D) (sappend k v V).
Proof.
  intros h k x v D V E R. induction R as [|[k1 xs] [k2 vs] D V [A B] R IH]; cbn in *.
  - constructor; [|constructor]. cbn. auto.
  - subst k2. destruct (String.eqb k1 k); constructor; auto. cbn. split; [reflexivity|]. apply Forall2_app; auto.
Qed.

Lemma sappend_in : forall k x (D : sdict (list loc)) y, In y (flat_map snd (sappend k x D)) -> y = x \/ In y (flat_map snd D).
Proof.
  intros k x. induction D as [|[k1 xs] D IH]; cbn; intros y Y.
  - destruct Y as [<-|[]]. auto.
  - destruct (String.eqb k1 k); cbn in Y; rewrite !in_app_iff in *; cbn in Y.
    + destruct Y as [[Y|[<-|[]]]|Y]; auto.
    + destruct Y as [Y|Y]; auto. apply IH in Y. tauto.
Qed.

Lemma entry_run : forall h l (t : term T), a_term h l = Some t ->
  match t_f t with
  | Some f => exists x, f_entry l h = (h, Ok (phonon_config_id (cfg (t_cfg t)), x)) /\ a_vec h x = Some f /\ In x (tr h l)
  | None => f_entry l h = (h, Err AttributeError)
  end.
Proof.
  intros h l t E. unfold a_term in E. destruct (cell_at h l) as [[]|] eqn:F; try discriminate.
  destruct (a_cfg h (ot_cfg o)) as [c|] eqn:C; [|discriminate]. destruct (maybe (a_hterm h) (ot_h o)) as [ht|]; [|discriminate].
  destruct (a_vec h (ot_exp o)) as [e|]; [|discriminate]. destruct (maybe (a_vec h) (ot_f o)) as [fv|] eqn:V; [|discriminate].
  destruct (maybe (a_vec h) (ot_g o)) as [g|]; [|discriminate]. cbn in E. injection E as <-. cbn [t_f t_cfg].
  assert (R : f_entry l h = match ot_f o with Some f => (h, Ok (phonon_config_id (cfg c), f)) | None => (h, Err AttributeError) end).
  { unfold f_entry, pbind, load. rewrite (as_term _ _ _ F), C. destruct (ot_f o); reflexivity. }
  rewrite R. unfold maybe in V. destruct (ot_f o) as [x|] eqn:X.
  - destruct (a_vec h x) as [f|] eqn:Y; [|discriminate]. cbn in V. injection V as <-. exists x. split; [reflexivity|]. split; [exact Y|].
    unfold tr. rewrite (as_term _ _ _ F), X. cbn. auto.
  - injection V as <-. reflexivity.
Qed.

Lemma entries_run : forall h ls (ts : list (term T)), Forall2 (fun l t => a_term h l = Some t) ls ts ->
  (exists es, each f_entry ls h = (h, Ok es) /\ (forall e, In e es -> In (snd e) (flat_map (tr h) ls)) /\
     Forall2 (fun e t => fst e = phonon_config_id (cfg (t_cfg t)) /\ exists f, t_f t = Some f /\ a_vec h (snd e) = Some f) es ts) \/
  (each f_entry ls h = (h, Err AttributeError) /\ forall D, foldM (fun d t => match t_f t with
                    | Some f => Ok (sappend (phonon_config_id (cfg (t_cfg t))) f d) | None => Err AttributeError end) ts D = Err AttributeError).
Proof.
  intros h ls ts F. induction F as [|l t ls ts E F IH].
  - left. exists []. split; [reflexivity|]. split; [intros e []|constructor].
  - pose proof (entry_run h l t E) as R. cbn [each foldM]. destruct (t_f t) as [f|] eqn:X.
    + destruct R as (x & R1 & R2 & R3). unfold pbind. rewrite R1. destruct IH as [(es & A & B & C)|[A B]]; rewrite A.
      * left. eexists. split; [reflexivity|]. split.
        -- intros e [<-|Z]; cbn; rewrite in_app_iff; [auto|]. right. apply B, Z.
        -- constructor; [|exact C]. cbn. eauto.
      * right. split; [reflexivity|]. intros D. cbn [bind]. apply B.
    + right. unfold pbind. rewrite R. auto.
Qed.

Lemma populate_rel : forall h (es : list (string * loc)) (ts : list (term T)),
  Forall2 (fun e t => fst e = phonon_config_id (cfg (t_cfg t)) /\ exists f, t_f t = Some f /\ a_vec h (snd e) = Some f) es ts ->
  forall D V, drel h D V -> exists V', foldM (fun d t => match t_f t with
                    | Some f => Ok (sappend (phonon_config_id (cfg (t_cfg t))) f d) | None => Err AttributeError end) ts V = Ok V' /\
    drel h (fold_left (fun d kf => sappend (fst kf) (snd kf) d) es D) V'.
Proof.
  intros h es ts F. induction F as [|e t es ts [A (f & B & C)] F IH]; intros D V R; cbn [foldM fold_left].
  - eauto.
  - rewrite B. cbn [bind]. rewrite <- A. apply IH. apply sappend_rel; assumption.
Qed.

Lemma fold_in : forall (es : list (string * loc)) (D : sdict (list loc)) y, In y (flat_map snd (fold_left (fun d kf => sappend (fst kf) (snd kf) d) es D)) ->
  In y (map snd es) \/ In y (flat_map snd D).
Proof.
  induction es as [|e es IH]; intros D y Y; cbn in *; [auto|]. apply IH in Y as [Y|Y]; [auto|]. apply sappend_in in Y as [->|Y]; auto.
Qed.

Lemma new_entries : forall (D : sdict (list loc)) h,
  each new_entry D h = (h ++ map (fun kv => CList (snd kv)) D, Ok (combine (map fst D) (seq (List.length h) (List.length D)))).
Proof.
  induction D as [|[k xs] D IH]; intros h; cbn [each]; [unfold ret; rewrite app_nil_r; reflexivity|].
  unfold pbind, new_entry at 1, pbind, alloc, ret at 1. rewrite IH, app_length. cbn. rewrite <- app_assoc, Nat.add_1_r. reflexivity.
Qed.

(** The dictionary of an equation as it is built. *)
Record is_new h (D0 : sdict (list loc)) h' (d : loc) : Prop := {
  in_heap : h' = h ++ map (fun kv => CList (snd kv)) D0 ++ [CDict (combine (map fst D0) (seq (List.length h) (List.length D0)))];
  in_loc : d = List.length h + List.length D0 }.

Lemma new_dict : forall h D0 h' d, is_new h D0 h' d -> cell_at h' d = Some (CDict (combine (map fst D0) (seq (List.length h) (List.length D0)))).
Proof.
  intros h D0 h' d [-> ->]. rewrite at_plus. rewrite nth_error_app2 by (rewrite map_length; lia). rewrite map_length, Nat.sub_diag. reflexivity.
Qed.

Lemma new_lists : forall h D0 h' d, is_new h D0 h' d -> forall i kv, nth_error D0 i = Some kv -> cell_at h' (List.length h + i) = Some (CList (snd kv)).
Proof.
  intros h D0 h' d [-> _] i kv E. rewrite at_plus, nth_error_app1 by (rewrite map_length; apply nth_error_Some; congruence).
  rewrite nth_error_map, E. reflexivity.
Qed.

Lemma combine_items : forall h' (D0 : sdict (list loc)) n, (forall i kv, nth_error D0 i = Some kv -> cell_at h' (n + i) = Some (CList (snd kv))) ->
  Forall2 (fun kl kv => fst kl = fst kv /\ cell_at h' (snd kl) = Some (CList (snd kv))) (combine (map fst D0) (seq n (List.length D0))) D0.
Proof.
  intros h'. induction D0 as [|kv D0 IH]; intros n H; cbn; constructor.
  - cbn. split; [reflexivity|]. specialize (H 0 kv eq_refl). rewrite Nat.add_0_r in H. exact H.
  - apply IH. intros i kv' E. specialize (H (S i) kv' E). rewrite Nat.add_succ_r in H. exact H.
Qed.

Lemma snd_combine : forall A B (l : list A) (l' : list B), List.length l = List.length l' -> map snd (combine l l') = l'.
Proof. induction l as [|x l IH]; intros [|y l'] H; cbn in *; try discriminate; auto. f_equal. apply IH. lia. Qed.

Lemma new_value : forall h D0 h' d V, is_new h D0 h' d -> drel h D0 V ->
  a_dict h' d = Some V /\ dr h' d = flat_map snd D0 /\ (exists D, cell_at h' d = Some (CDict D) /\ NoDup (map snd D)).
Proof.
  intros h D0 h' d V N R. pose proof (new_dict _ _ _ _ N) as E. pose proof (combine_items h' D0 _ (new_lists _ _ _ _ N)) as C.
  set (D := combine _ _) in *. split; [|split].
  - unfold a_dict. rewrite E. apply opt_map_some.
    assert (U : forall x v, a_vec h x = Some v -> a_vec h' x = Some v).
    { destruct N as [-> _]. intros x v X. unfold a_vec in *. destruct (cell_at h x) eqn:Y; [|discriminate]. rewrite at_old by (eapply at_lt, Y). rewrite Y. exact X. }
    clear E N. revert V R. induction C as [|kl kv D' D0' [A B] C IH]; intros V R; inversion R as [|? v ? V' [P Q] R']; subst; constructor.
    + unfold a_list. rewrite B. assert (O : opt_map (a_vec h') (snd kv) = Some (snd v)).
      { apply opt_map_some. clear - Q U. induction Q as [|x w l l' X Q IH]; constructor; auto. }
      rewrite O. cbn. rewrite A, P. destruct v; reflexivity.
    + apply IH. exact R'.
  - unfold dr, as_. rewrite E. cbn [opt_bind is_dict]. unfold items. clear - C. induction C as [|kl kv D' D0' [A B] C IH]; [reflexivity|]. cbn.
    unfold as_. rewrite B. cbn. f_equal. exact IH.
  - exists D. split; [exact E|]. unfold D. rewrite snd_combine by (rewrite map_length, seq_length; reflexivity). apply seq_NoDup.
Qed.

Lemma sim_populate : forall n b h ls (ts : list (term T)), b <= List.length h -> good b h -> Forall2 (fun l t => a_term h l = Some t) ls ts -> (forall l, In l ls -> b <= l) ->
  sim n b (o_populate ls) h (populate ts) (fun h' d V => exists D0, is_new h D0 h' d /\ drel h D0 V /\ (forall x, In x (flat_map snd D0) -> In x (flat_map (tr h) ls))).
Proof.
  intros n b h ls ts BL G F LB. unfold o_populate, populate. destruct (entries_run h ls ts F) as [(es & A & B & C)|[A B]].
  - destruct (populate_rel h es ts C [] []) as (V & E & R); [constructor|]. rewrite E. eapply sim_det; [exact A|apply keeps_refl|].
    set (D0 := fold_left (fun d kf => sappend (fst kf) (snd kf) d) es []) in *. assert (I : forall x, In x (flat_map snd D0) -> In x (flat_map (tr h) ls)).
    { intros x X. apply fold_in in X as [X|[]]. apply in_map_iff in X as [e [<- X]]. apply B, X. }
    assert (I' : forall x, In x (flat_map snd D0) -> b <= x < List.length h).
    { intros x X. unfold D0 in X. apply fold_in in X as [X|[]]. apply in_map_iff in X as [e [<- X]]. 
      assert (FE : exists l, In l ls /\ exists o, cell_at h l = Some (CTerm o) /\ ot_f o = Some (snd e)).
      { clear - A X. revert es A X. induction ls as [|l ls IH]; intros es A X; cbn in A.
        - injection A as <-. destruct X.
        - unfold pbind in A. destruct (f_entry l h) as [h1 [e1|]] eqn:E; [|discriminate].
          assert (h1 = h /\ exists o, cell_at h l = Some (CTerm o) /\ ot_f o = Some (snd e1)) as [-> (o & O1 & O2)].
          { unfold f_entry, pbind, load, as_ in E. destruct (cell_at h l) as [[]|]; try discriminate. cbn in E. destruct (a_cfg h (ot_cfg o)); [|discriminate].
            destruct (ot_f o) eqn:Y; [|discriminate]. cbn in E. injection E as <- <-. split; [reflexivity|]. exists o. auto. }
          destruct (each f_entry ls h) as [h2 [es2|]] eqn:E2; [|discriminate]. injection A as -> <-. destruct X as [<-|X].
          + exists l. split; [left; reflexivity|]. eauto.
          + destruct (IH es2 eq_refl X) as (l' & L' & Z). exists l'. split; [right; exact L'|exact Z]. }
      destruct FE as (l & L & o & O1 & O2). apply (proj2 G l (CTerm o) (LB l L) O1). cbn. rewrite O2, !in_app_iff. cbn. tauto. }
    eapply sim_det; [apply new_entries|apply keeps_app|]. unfold sim, alloc. cbn [fst snd]. split; [apply keeps_app|]. rewrite <- app_assoc. split.
    + apply good_app; [exact G|exact BL|]. intros c Cc y Y. rewrite app_length, map_length. cbn. apply in_app_or in Cc as [Cc|[<-|[]]].
      * apply in_map_iff in Cc as [kv [<- K]]. cbn in Y. assert (Z : b <= y < List.length h); [|lia]. apply I'. apply in_flat_map. eauto.
      * cbn in Y. rewrite snd_combine in Y by (rewrite map_length, seq_length; reflexivity). apply in_seq in Y. lia.
    + exists D0. split; [|auto]. constructor; [reflexivity|]. rewrite app_length, map_length. reflexivity.
  - rewrite B. unfold sim, pbind. rewrite A. cbn [fst snd]. split; [apply keeps_refl|]. auto.
Qed.

(** * Equations *)

(** Nothing of an equation but the [g_arg]s shares the arrays that are changed
    when a delta is chosen. *)
Definition mr h (l : loc) : list loc := match as_ is_model h l with Some ts => flat_map (hr h) ts | None => [] end.
Definition a_owner h (e : loc) : option (model T) := match cell_at h e with Some (CEq _ _ m _ _) => a_model h m | _ => None end.
Record sep (mo : model T) h (e : loc) : Prop := mkSep {
  so : a_owner h e = Some mo;
  sp : exists g i m tl d ts D, cell_at h e = Some (CEq g i m tl d) /\ cell_at h tl = Some (CList ts) /\ cell_at h d = Some (CDict D) /\ NoDup (map snd D) /\
    ~ In i ts /\ tg h i = [] /\ NoDup (flat_map (tg h) ts) /\
    (forall x, In x (flat_map (tg h) ts) -> ~ In x (tr h i) /\ ~ In x (flat_map (tr h) ts) /\ ~ In x (dr h d) /\ ~ In x (mr h m)) }.

Lemma iso_dr : forall P p h h', iso P p h h' -> forall l, P l -> dr h' (p l) = map p (dr h l) /\ (forall x, In x (dr h l) -> P x).
Proof.
  intros P p h h' I l H. unfold dr, as_. rewrite (iso_cell P p h h' I l H). destruct (cell_at h l) as [[]|] eqn:E; try (split; [reflexivity|cbn; tauto]); cbn.
  assert (R : forall y, In y (map snd d) -> P y) by (intros y Y; apply (iso_refs P p h h' I l _ y H E Y)). clear E H. unfold items.
  induction d as [|[k x] d IH]; cbn; [split; [reflexivity|tauto]|]. destruct IH as [A B]; [intros; apply R; right; assumption|].
  unfold as_. rewrite (iso_cell P p h h' I x) by (apply R; left; reflexivity). destruct (cell_at h x) as [[]|] eqn:E; cbn; auto.
  rewrite map_app. split; [f_equal; exact A|]. intros y Y. apply in_app_or in Y as [Y|Y]; [|auto]. apply (iso_refs P p h h' I x _ y (R x (or_introl eq_refl)) E Y).
Qed.

Lemma iso_mr : forall P p h h', iso P p h h' -> forall l, P l -> mr h' (p l) = map p (mr h l) /\ (forall x, In x (mr h l) -> P x).
Proof.
  intros P p h h' I l H. unfold mr, as_. rewrite (iso_cell P p h h' I l H). destruct (cell_at h l) as [[]|] eqn:E; try (split; [reflexivity|cbn; tauto]). cbn [option_map relink opt_bind is_model].
  apply (iso_flat P p (hr h) (hr h') (iso_hr P p h h' I)). intros y Y. apply (iso_refs P p h h' I l _ y H E). exact Y.
Qed.

Lemma iso_owner : forall P p h h', iso P p h h' -> forall e, P e -> a_owner h' (p e) = a_owner h e.
Proof.
  intros P p h h' I e H. unfold a_owner. rewrite (iso_cell P p h h' I e H). destruct (cell_at h e) as [[]|] eqn:E; try reflexivity. cbn [option_map relink].
  apply (iso_model P p h h' I). apply (iso_refs P p h h' I e _ _ H E). cbn. auto.
Qed.

Lemma inj_notin : forall (P : loc -> Prop) (p : loc -> loc) x l, (forall x y, P x -> P y -> p x = p y -> x = y) -> P x -> (forall y, In y l -> P y) -> ~ In x l -> ~ In (p x) (map p l).
Proof. intros P p x l J X L N H. apply in_map_iff in H as [y [E Y]]. apply N. rewrite (J x y); auto. Qed.

Lemma inj_NoDup : forall (P : loc -> Prop) (p : loc -> loc) l, (forall x y, P x -> P y -> p x = p y -> x = y) -> (forall y, In y l -> P y) -> NoDup l -> NoDup (map p l).
Proof.
  intros P p l J L N. induction N as [|x l X N IH]; cbn; constructor.
  - apply (inj_notin P); auto; intros; apply L; cbn; auto.
  - apply IH. intros. apply L. right. assumption.
Qed.

Lemma iso_sep : forall mo P p h h' e, iso P p h h' -> (forall x y, P x -> P y -> p x = p y -> x = y) -> P e -> sep mo h e -> sep mo h' (p e).
Proof.
  intros mo P p h h' e I J Pe [SO (g & i & m & tl & d & ts & D & E1 & E2 & E3 & N1 & N2 & N3 & N4 & N5)].
  assert (R : forall y, In y [i; m; tl; d] -> P y) by (intros y Y; apply (iso_refs P p h h' I e _ y Pe E1 Y)).
  assert (Pts : forall y, In y ts -> P y) by (intros y Y; apply (iso_refs P p h h' I tl _ y (R tl ltac:(cbn; auto)) E2 Y)).
  assert (PD : forall y, In y (map snd D) -> P y) by (intros y Y; apply (iso_refs P p h h' I d _ y (R d ltac:(cbn; auto)) E3 Y)).
  destruct (iso_flat P p (tg h) (tg h') (iso_tg P p h h' I) ts Pts) as [G1 G2].
  destruct (iso_flat P p (tr h) (tr h') (iso_tr P p h h' I) ts Pts) as [R1 R2].
  destruct (iso_tr P p h h' I i (R i ltac:(cbn; auto))) as [Q1 Q2].
  destruct (iso_dr P p h h' I d (R d ltac:(cbn; auto))) as [S1 S2].
  destruct (iso_mr P p h h' I m (R m ltac:(cbn; auto))) as [M1 M2].
  constructor; [rewrite (iso_owner P p h h' I e Pe); exact SO|]. exists g, (p i), (p m), (p tl), (p d), (map p ts), (map (fun kv => (fst kv, p (snd kv))) D).
  split; [rewrite (iso_cell P p h h' I e Pe), E1; reflexivity|].
  split; [rewrite (iso_cell P p h h' I tl (R tl ltac:(cbn; auto))), E2; reflexivity|].
  split; [rewrite (iso_cell P p h h' I d (R d ltac:(cbn; auto))), E3; reflexivity|].
  split; [rewrite map_map; cbn; rewrite <- (map_map snd p); apply (inj_NoDup P); auto|].
  split; [apply (inj_notin P); auto; apply R; cbn; auto|]. split; [rewrite (proj1 (iso_tg P p h h' I i (R i ltac:(cbn; auto)))), N3; reflexivity|].
  rewrite G1, R1, Q1, S1, M1. split; [apply (inj_NoDup P); auto|].
  intros x X. apply in_map_iff in X as [y [<- Y]]. destruct (N5 y Y) as (A & B & C & C'). split; [|split; [|split]]; apply (inj_notin P); auto.
Qed.

(** equations.py:143-152 *)
Lemma sim_equation_init : forall b h il ml m oi la mm mo a it green init r,
  b <= List.length h -> good b h -> a_model h ml = Some m -> ml < List.length h ->
  cell_at h il = Some (CTerm oi) -> cell_at h (ot_cfg oi) = Some (CConfig la mm mo) -> cell_at h la = Some (CNd a) -> a_term h il = Some it -> ot_g oi = None ->
  (forall q hB ml' il' oi' la', q = List.length hB -> b <= q -> sealed 0 hB -> a_model hB ml' = Some m -> ml' < q -> b <= ml' ->
     cell_at hB il' = Some (CTerm oi') -> cell_at hB (ot_cfg oi') = Some (CConfig la' mm mo) -> cell_at hB la' = Some (CNd a) -> good b hB ->
     sim q b (init ml' il') hB r (built q)) ->
  sim (List.length h) b (o_equation_init green init il ml) h (ts <- r ;; d <- populate ts ;; Ok (mkEq green it ts d))
    (fun h' e v => a_eq h' e = Some v /\ sep m h' e /\ b <= e < List.length h').
Proof.
  intros b h il ml m oi la mm mo a it green init r BL G Em Lm Ei Ec Ea Et Eg H. unfold o_equation_init.
  destruct (deepcopy_spec h il (proj1 G) (at_lt _ _ _ Ei)) as (h1 & i & P & p & D1 & C1 & SE1).
  eapply sim_det; [exact D1|apply (cp_below _ _ _ _ _ _ C1)|].
  assert (G1 : good b h1) by (split; apply SE1; try lia; apply G). pose proof (cp_below _ _ _ _ _ _ C1 (List.length h)) as K1.
  pose proof (cp_iso _ _ _ _ _ _ C1) as I1. pose proof (cp_root _ _ _ _ _ _ C1) as R1.
  assert (Em1 : a_model h1 ml = Some m) by (rewrite <- Em; apply (iso_model _ _ _ _ (iso_keeps h h1 (proj1 G) K1)); exact Lm).
  assert (L1 : List.length h <= List.length h1) by apply K1.
  destruct (deepcopy_spec h1 ml (proj1 G1) ltac:(lia)) as (h2 & m' & P' & p' & D2 & C2 & SE2).
  pose proof (cp_below _ _ _ _ _ _ C2 (List.length h1)) as K2. assert (L2 : List.length h1 <= List.length h2) by apply K2.
  eapply sim_det; [exact D2|eapply keeps_le; [|exact K2]; lia|].
  assert (G2 : good b h2) by (split; apply SE2; try lia; apply G1).
  assert (Li : List.length h <= i < List.length h1) by (rewrite (cp_loc _ _ _ _ _ _ C1); apply (cp_in _ _ _ _ _ _ C1); exact R1).
  assert (Lm' : List.length h1 <= m' < List.length h2) by (rewrite (cp_loc _ _ _ _ _ _ C2); apply (cp_in _ _ _ _ _ _ C2), (cp_root _ _ _ _ _ _ C2)).
  assert (Em' : a_model h2 m' = Some m).
  { rewrite (cp_loc _ _ _ _ _ _ C2), (iso_model _ _ _ _ (cp_iso _ _ _ _ _ _ C2) ml (cp_root _ _ _ _ _ _ C2)). exact Em1. }
  assert (Pc : P (ot_cfg oi)) by (apply (iso_refs _ _ _ _ I1 il _ _ R1 Ei); cbn; auto).
  assert (Pa : P la) by (apply (iso_refs _ _ _ _ I1 (ot_cfg oi) _ _ Pc Ec); cbn; auto).
  assert (Ei1 : cell_at h1 i = Some (relink p (CTerm oi))) by (rewrite (cp_loc _ _ _ _ _ _ C1), (iso_cell _ _ _ _ I1 il R1), Ei; reflexivity).
  assert (Ec1 : cell_at h1 (p (ot_cfg oi)) = Some (CConfig (p la) mm mo)) by (rewrite (iso_cell _ _ _ _ I1 _ Pc), Ec; reflexivity).
  assert (Ea1 : cell_at h1 (p la) = Some (CNd a)) by (rewrite (iso_cell _ _ _ _ I1 _ Pa), Ea; reflexivity).
  assert (Et1 : a_term h1 i = Some it) by (rewrite (cp_loc _ _ _ _ _ _ C1), (iso_term _ _ _ _ I1 il R1); exact Et).
  assert (UP : forall l c, cell_at h1 l = Some c -> cell_at h2 l = Some c) by (intros l c E; eapply keeps_at; [exact K2|eapply at_lt, E|exact E]).
  destruct (keep_iso h1 h2 i (proj1 G1) K2 ltac:(lia)) as (T2 & TG2 & _ & _ & _).
  assert (L3 : List.length h <= List.length h2) by lia.
  eapply sim_bind with (R := fun h' l v => built (List.length h2) h' l v /\ keeps (List.length h2) h2 h').
  - eapply sim_le; [exact L3|]. eapply sim_post; [eapply (H (List.length h2) h2 m' i _ (p la))|]; try eassumption; try reflexivity; try lia; try apply G2.
    + apply UP. exact Ei1.
    + cbn [ot_cfg]. apply UP. exact Ec1.
    + apply UP. exact Ea1.
    + intros h3 l v K3 _ B. auto.
  - intros h3 ls ts _ G3 [B K3]. assert (L4 : List.length h2 <= List.length h3) by apply K3.
    eapply sim_bind; [apply sim_populate; [lia|exact G3|apply B|intros l Hl; pose proof (b_lo _ _ _ _ B l Hl); lia]|].
    intros h4 d V _ G4 (D0 & N & R & SUB). destruct (new_value _ _ _ _ _ N R) as (VD & DR & D & ED & ND).
    assert (K4 : keeps (List.length h3) h3 h4) by (destruct N as [-> _]; apply keeps_app).
    assert (L5 : List.length h3 <= d < List.length h4).
    { split; [destruct N as [_ ->]; lia|]. eapply at_lt, ED. }
    eapply sim_alloc. unfold sim, alloc. cbn [fst snd]. split; [apply keeps_app|]. rewrite <- app_assoc. cbn [app].
    rewrite app_length. cbn [List.length].
    pose proof (built_keep _ _ _ _ _ (proj1 G3) K4 B) as B4.
    set (h5 := h4 ++ [CList ls; CEq green i m' (List.length h4) d]).
    assert (K5 : keeps (List.length h4) h4 h5) by apply keeps_app.
    pose proof (built_keep _ _ _ _ _ (proj1 G4) K5 B4) as B5.
    assert (E5 : cell_at h5 (List.length h4) = Some (CList ls)) by apply at_first.
    assert (E6 : cell_at h5 (List.length h4 + 1) = Some (CEq green i m' (List.length h4) d)) by (unfold h5; rewrite at_plus; reflexivity).
    assert (LS : forall l, In l ls -> b <= l < List.length h4).
    { intros l Hl. split; [pose proof (b_lo _ _ _ _ B l Hl); lia|]. apply (built_lt _ _ _ _ _ B4 Hl). }
    assert (KK : keeps (List.length h2) h2 h5).
    { eapply keeps_trans; [exact K3|]. eapply keeps_trans; [eapply keeps_le; [|exact K4]|eapply keeps_le; [|exact K5]]; lia. }
    destruct (keep_iso h2 h5 i (proj1 G2) KK ltac:(lia)) as (T5 & TG5 & TR5 & _ & TL5).
    assert (TG : tg h5 i = []). { rewrite TG5, TG2. unfold tg, as_. rewrite Ei1. cbn. rewrite Eg. reflexivity. }
    destruct (iso_dr _ _ _ _ (iso_keeps h4 h5 (proj1 G4) K5) d (proj2 L5)) as [DR5 _]. rewrite map_id in DR5.
    split; [|split; [|split]].
    + unfold h5. apply good_app; [exact G4|lia|]. cbn. intros c [<-|[<-|[]]]; cbn; [intros y Y; specialize (LS y Y); unfold loc, heap in *; lia|].
      intros y Y. intuition (subst; lia).
    + unfold a_eq. rewrite E6, T5, T2, Et1. cbn [opt_bind]. unfold a_list. rewrite E5. rewrite (proj2 (opt_map_some _ _ _ _ _) (b_val _ _ _ _ B5)). cbn [opt_bind].
      pose proof (iso_dict _ _ _ _ (iso_keeps h4 h5 (proj1 G4) K5) d (proj2 L5)) as X. cbn beta in X. rewrite X, VD. reflexivity.
    + assert (M5 : a_model h5 m' = Some m) by (rewrite (iso_model _ _ _ _ (iso_keeps h2 h5 (proj1 G2) KK) m' (proj2 Lm')); exact Em').
      destruct (iso_mr _ _ _ _ (iso_keeps h2 h5 (proj1 G2) KK) m' (proj2 Lm')) as [MR5 ML5]. rewrite map_id in MR5.
      constructor; [unfold a_owner; rewrite E6; exact M5|]. exists green, i, m', (List.length h4), d, ls, D. split; [exact E6|]. split; [exact E5|].
      split; [eapply keeps_at; [exact K5|lia|exact ED]|]. split; [exact ND|].
      split; [intros Z; pose proof (b_lo _ _ _ _ B _ Z); lia|]. split; [exact TG|]. split; [apply B5|].
      intros x X. split; [|split; [apply (b_dis _ _ _ _ B5 x X)|split]].
      * rewrite TR5. intros Y. specialize (TL5 x Y). pose proof (b_g _ _ _ _ B5 x X). lia.
      * rewrite DR5, DR. intros Y. apply SUB in Y. apply (b_dis _ _ _ _ B5 x X).
        erewrite (keep_flat h3 h5); [exact Y|]. intros l Hl. apply keep_iso; [apply G3| |apply (built_lt _ _ _ _ _ B Hl)].
        eapply keeps_trans; [exact K4|]. eapply keeps_le; [|exact K5]. lia.
      * rewrite MR5. intros Y. specialize (ML5 x Y). cbn beta in ML5. pose proof (b_g _ _ _ _ B5 x X). lia.
    + unfold h5. rewrite app_length. cbn. lia.
Qed.
Lemma sim_index : forall n b h l a, b <= List.length h -> good b h -> a_nd h l = Some a ->
  sim n b (o_index_term l) h (index_term a) (fun h' i it => keeps (List.length h) h h' /\ a_term h' i = Some it /\
    exists oi la, cell_at h' i = Some (CTerm oi) /\ cell_at h' (ot_cfg oi) = Some (CConfig la 1 0) /\ cell_at h' la = Some (CNd a) /\ ot_g oi = None).
Proof.
  intros n b h l a BL G E. unfold o_index_term, index_term.
  eapply sim_bind; [apply sim_config; [exact BL|exact G|exact E]|]. intros h1 c cf K1 G1 (-> & -> & ->). clear K1 G1.
  eapply sim_new; [apply zero_shift_run; apply cfg_plus|]; cbn [app List.length].
  unfold sim, alloc. cbn [fst snd]. split; [apply keeps_app|]. rewrite <- app_assoc. cbn [app]. split.
  - apply good_app; [exact G|exact BL|]. cbn. intros c [<-|[<-|[<-|[<-|[]]]]]; cbn; intros y Y; intuition (subst; lia).
  - rewrite app_length. cbn [List.length]. split; [apply keeps_app|]. set (xs := [CNd a; _; _; _]).
    assert (ET : cell_at (h ++ xs) (List.length h + 3) = Some (CTerm (mkOterm KIndex (List.length h + 1) None None (List.length h + 2) None None [] None))) by (rewrite at_plus; reflexivity).
    split.
    + unfold a_term. rewrite ET. cbn [ot_cfg ot_h ot_exp ot_f ot_g ot_kind ot_const ot_fshift maybe]. unfold xs at 1. rewrite cfg_plus.
      rewrite (vec_plus h xs 2 _ eq_refl). reflexivity.
    + eexists _, (List.length h). split; [exact ET|]. cbn [ot_cfg ot_g]. split; [rewrite at_plus; reflexivity|]. split; [apply at_first|reflexivity].
Qed.

Lemma good_top : forall h, sealed 0 h -> good (List.length h) h.
Proof. intros h S. split; [exact S|]. intros l c L E. pose proof (at_lt _ _ _ E). lia. Qed.

(** equations.py:85-103 *)
Lemma sim_equation : forall h ml la a m, sealed 0 h -> a_model h ml = Some m -> ml < List.length h -> cell_at h la = Some (CNd a) ->
  sim (List.length h) (List.length h) (o_equation ml la) h (equation_from m a)
    (fun h' e v => a_eq h' e = Some v /\ sep m h' e /\ List.length h <= e < List.length h').
Proof.
  intros h ml la a m S Em Lm E. unfold o_equation, equation_from.
  eapply sim_det; [apply copy_nd_run, nd_of; exact E|apply keeps_app|].
  assert (G1 : good (List.length h) (h ++ [CNd a])) by (apply good_alloc; [apply good_top, S|apply no_refs_nd]).
  eapply sim_bind; [apply sim_index; [rewrite app_length; lia|exact G1|apply nd_of, at_new]|].
  intros h1 i it _ G2 (K1 & T1 & oi & la' & C1 & C2 & C3 & C4). rewrite app_length in K1. cbn in K1.
  assert (KK : keeps (List.length h) h h1) by (eapply keeps_trans; [apply keeps_app|]; eapply keeps_le; [|exact K1]; lia).
  assert (LL : List.length h <= List.length h1) by apply KK.
  eapply sim_le; [exact LL|]. eapply sim_equation_init; try eassumption; try lia.
  - rewrite <- Em. apply (iso_model _ _ _ _ (iso_keeps h h1 S KK)). exact Lm.
  - intros. eapply sim_initialize; eassumption.
Qed.

(** equations.py:337-346 *)
Lemma sim_green_equation : forall h ml m, sealed 0 h -> a_model h ml = Some m -> ml < List.length h ->
  sim (List.length h) (List.length h) (o_green_equation ml) h (green_equation m)
    (fun h' e v => a_eq h' e = Some v /\ sep m h' e /\ List.length h <= e < List.length h').
Proof.
  intros h ml m S Em Lm. unfold o_green_equation, green_equation. eapply sim_load; [exact Em|]. eapply sim_alloc.
  set (a := zeros _). eapply sim_det; [apply copy_nd_run, nd_of, at_new|apply keeps_app|]. rewrite <- app_assoc. cbn [app].
  assert (G1 : good (List.length h) (h ++ [CNd a; CNd a])).
  { apply good_app; [apply good_top, S|lia|]. cbn. intros c [<-|[<-|[]]] y []. }
  rewrite app_length. cbn [List.length].
  eapply sim_bind; [apply sim_index; [rewrite app_length; lia|exact G1|apply nd_of; rewrite at_plus; reflexivity]|].
  intros h1 i it _ G2 (K1 & T1 & oi & la' & C1 & C2 & C3 & C4). rewrite app_length in K1. cbn in K1.
  assert (KK : keeps (List.length h) h h1) by (eapply keeps_trans; [apply keeps_app|]; eapply keeps_le; [|exact K1]; lia).
  assert (LL : List.length h <= List.length h1) by apply KK.
  assert (AS : forall k : list (term T) -> result (equation T), (ls <- mapM (green_term m) (h_terms (m_ham m)) ;; k (concat ls)) = (ts <- (ls <- mapM (green_term m) (h_terms (m_ham m)) ;; Ok (concat ls)) ;; k ts)).
  { intros k. destruct (mapM _ _); reflexivity. }
  rewrite (AS (fun ts => d <- populate ts ;; Ok (mkEq true it ts d))).
  eapply sim_le; [exact LL|]. eapply sim_equation_init; try eassumption; try lia.
  - rewrite <- Em. apply (iso_model _ _ _ _ (iso_keeps h h1 S KK)). exact Lm.
  - intros. eapply sim_greens; try eassumption. reflexivity.
Qed.

(** * Changing arrays in place *)

(** Only the contents of the arrays [W] differ. *)
Definition vecs (W : list loc) h h' : Prop := List.length h' = List.length h /\
  forall y, (~ In y W -> cell_at h' y = cell_at h y) /\ (In y W -> exists u w, cell_at h y = Some (CVec u) /\ cell_at h' y = Some (CVec w)).

Section Vecs.
Variables (W : list loc) (h h' : heap T).
Hypothesis V : vecs W h h'.

Lemma vecs_or : forall y, cell_at h' y = cell_at h y \/ exists u w, In y W /\ cell_at h y = Some (CVec u) /\ cell_at h' y = Some (CVec w).
Proof.
  intros y. destruct V as [_ V']. destruct (V' y) as [A B]. destruct (in_dec Nat.eq_dec y W) as [I|I]; [right|left; auto]. destruct (B I) as (u & w & X & Y). eauto.
Qed.
Lemma vecs_cell : forall y c, cell_at h y = Some c -> (forall u, c <> CVec u) -> cell_at h' y = Some c.
Proof. intros y c E N. destruct (vecs_or y) as [->|(u & w & _ & X & _)]; [exact E|]. rewrite E in X. injection X as ->. exfalso. eapply N. reflexivity. Qed.
Lemma vecs_as : forall A (f : cell T -> option A), (forall u, f (CVec u) = None) -> forall y, as_ f h' y = as_ f h y.
Proof. intros A f F y. unfold as_. destruct (vecs_or y) as [->|(u & w & _ & -> & ->)]; [reflexivity|]. cbn. rewrite !F. reflexivity. Qed.
Lemma vecs_hr : forall l, hr h' l = hr h l.
Proof. intros l. unfold hr. destruct (vecs_or l) as [->|(u & w & _ & -> & ->)]; reflexivity. Qed.
Lemma vecs_tg : forall l, tg h' l = tg h l.
Proof. intros l. unfold tg. rewrite vecs_as by reflexivity. reflexivity. Qed.
Lemma vecs_tr : forall l, tr h' l = tr h l.
Proof. intros l. unfold tr. rewrite vecs_as by reflexivity. destruct (as_ is_term h l); [|reflexivity]. f_equal. f_equal. apply flat_map_ext. exact vecs_hr. Qed.
Lemma vecs_vec : forall l, ~ In l W -> a_vec h' l = a_vec h l.
Proof. intros l N. unfold a_vec. rewrite (proj1 (proj2 V l) N). reflexivity. Qed.
Lemma vecs_nd : forall l, a_nd h' l = a_nd h l.
Proof. intros l. unfold a_nd. destruct (vecs_or l) as [->|(u & w & _ & -> & ->)]; reflexivity. Qed.
Lemma vecs_cfg : forall l, a_cfg h' l = a_cfg h l.
Proof. intros l. unfold a_cfg. destruct (vecs_or l) as [->|(u & w & _ & -> & ->)]; [|reflexivity]. destruct (cell_at h l) as [[]|]; try reflexivity. rewrite vecs_nd. reflexivity. Qed.
Lemma vecs_hterm : forall l, (forall x, In x (hr h l) -> ~ In x W) -> a_hterm h' l = a_hterm h l.
Proof.
  intros l H. unfold a_hterm, hr in *. destruct (vecs_or l) as [->|(u & w & _ & -> & ->)]; [|reflexivity]. destruct (cell_at h l) as [[]|]; try reflexivity.
  rewrite !vecs_vec; [reflexivity| |]; apply H; cbn; auto.
Qed.
Lemma vecs_term : forall l, (forall x, In x (tg h l) \/ In x (tr h l) -> ~ In x W) -> a_term h' l = a_term h l.
Proof.
  intros l H. unfold a_term. unfold tg, tr, as_ in H. destruct (vecs_or l) as [->|(u & w & _ & -> & ->)]; [|reflexivity].
  destruct (cell_at h l) as [[]|]; try reflexivity. cbn in H. rewrite vecs_cfg. rewrite vecs_vec by (apply H; auto).
  assert (E1 : maybe (a_hterm h') (ot_h o) = maybe (a_hterm h) (ot_h o)).
  { destruct (ot_h o); [|reflexivity]. cbn. rewrite vecs_hterm; [reflexivity|]. intros x X. apply H. right. right. rewrite in_app_iff. right. cbn. rewrite app_nil_r. exact X. }
  assert (E2 : maybe (a_vec h') (ot_f o) = maybe (a_vec h) (ot_f o)).
  { destruct (ot_f o); [|reflexivity]. cbn. rewrite vecs_vec; [reflexivity|]. apply H. right. right. cbn. auto. }
  assert (E3 : maybe (a_vec h') (ot_g o) = maybe (a_vec h) (ot_g o)).
  { destruct (ot_g o); [|reflexivity]. cbn. rewrite vecs_vec; [reflexivity|]. apply H. left. cbn. auto. }
  rewrite E1, E2, E3. reflexivity.
Qed.
Lemma vecs_dict : forall l, (forall x, In x (dr h l) -> ~ In x W) -> a_dict h' l = a_dict h l.
Proof.
  intros l H. unfold a_dict. unfold dr, as_ in H. destruct (vecs_or l) as [->|(u & w & _ & -> & ->)]; [|reflexivity].
  destruct (cell_at h l) as [[]|]; try reflexivity. cbn in H. apply opt_map_ext. intros kv I. unfold a_list.
  destruct (vecs_or (snd kv)) as [->|(u & w & _ & -> & ->)]; [|reflexivity]. destruct (cell_at h (snd kv)) as [[]|] eqn:E; try reflexivity.
  erewrite (opt_map_ext _ _ (a_vec h')); [reflexivity|]. intros x X. apply vecs_vec, H. unfold items. apply in_flat_map. exists kv. split; [exact I|].
  unfold as_. rewrite E. exact X.
Qed.
Lemma vecs_model : forall l, (forall x, In x (mr h l) -> ~ In x W) -> a_model h' l = a_model h l.
Proof.
  intros l H. unfold a_model. unfold mr, as_ in H. destruct (vecs_or l) as [->|(u & w & _ & -> & ->)]; [|reflexivity].
  destruct (cell_at h l) as [[]|]; try reflexivity. cbn [opt_bind is_model] in H. rewrite (opt_map_ext _ _ (a_hterm h') (a_hterm h)); [reflexivity|].
  intros y Y. apply vecs_hterm. intros x X. apply H. apply in_flat_map. eauto.
Qed.
End Vecs.

Lemma vecs_refl : forall h, vecs [] h h.
Proof. intros h. split; [reflexivity|]. intros y. split; [reflexivity|intros []]. Qed.

Lemma vecs_set : forall h g u w, cell_at h g = Some (CVec u) -> vecs [g] h (setn h g (CVec w)).
Proof.
  intros h g u w E. split; [apply len_set|]. intros y. split.
  - intros N. apply at_other. intros ->. apply N. left. reflexivity.
  - intros [<-|[]]. exists u, w. split; [exact E|]. apply at_set. eapply at_lt, E.
Qed.

Lemma vecs_app : forall W W' h h1 h2, vecs W h h1 -> vecs W' h1 h2 -> vecs (W ++ W') h h2.
Proof.
  intros W W' h h1 h2 [L1 V1] [L2 V2]. split; [lia|]. intros y. destruct (V1 y) as [A1 B1]. destruct (V2 y) as [A2 B2]. rewrite in_app_iff. split.
  - intros N. rewrite A2, A1 by tauto. reflexivity.
  - intros I. destruct (in_dec Nat.eq_dec y W) as [I1|I1], (in_dec Nat.eq_dec y W') as [I2|I2].
    + destruct (B1 I1) as (u & w & X & Y). destruct (B2 I2) as (u' & w' & X' & Y'). eauto.
    + destruct (B1 I1) as (u & w & X & Y). exists u, w. rewrite A2 by exact I2. auto.
    + destruct (B2 I2) as (u & w & X & Y). exists u, w. rewrite <- A1 by exact I1. auto.
    + tauto.
Qed.

(** ** Rebinding an attribute of a term *)
Section Rebind.
Variables (h : heap T) (i : loc) (o o' : oterm T).
Hypothesis E : cell_at h i = Some (CTerm o).
Let h' := setn h i (CTerm o').

Lemma reb_or : forall y, (y <> i /\ cell_at h' y = cell_at h y) \/ (y = i /\ cell_at h' y = Some (CTerm o')).
Proof. intros y. destruct (Nat.eq_dec y i) as [->|N]; [right|left]; split; auto; [apply at_set; eapply at_lt, E|apply at_other, N]. Qed.
Lemma reb_as : forall A (f : cell T -> option A), (forall u, f (CTerm u) = None) -> forall y, as_ f h' y = as_ f h y.
Proof. intros A f F y. unfold as_. destruct (reb_or y) as [[_ ->]|[-> ->]]; [reflexivity|]. rewrite E. cbn. rewrite !F. reflexivity. Qed.
Lemma reb_vec : forall y, a_vec h' y = a_vec h y.
Proof. intros y. unfold a_vec. destruct (reb_or y) as [[_ ->]|[-> ->]]; [reflexivity|]. rewrite E. reflexivity. Qed.
Lemma reb_nd : forall y, a_nd h' y = a_nd h y.
Proof. intros y. unfold a_nd. destruct (reb_or y) as [[_ ->]|[-> ->]]; [reflexivity|]. rewrite E. reflexivity. Qed.
Lemma reb_cfg : forall y, a_cfg h' y = a_cfg h y.
Proof. intros y. unfold a_cfg. destruct (reb_or y) as [[_ ->]|[-> ->]]; [|rewrite E; reflexivity]. destruct (cell_at h y) as [[]|]; try reflexivity. rewrite reb_nd. reflexivity. Qed.
Lemma reb_hr : forall y, hr h' y = hr h y.
Proof. intros y. unfold hr. destruct (reb_or y) as [[_ ->]|[-> ->]]; [reflexivity|]. rewrite E. reflexivity. Qed.
Lemma reb_hterm : forall y, a_hterm h' y = a_hterm h y.
Proof. intros y. unfold a_hterm. destruct (reb_or y) as [[_ ->]|[-> ->]]; [|rewrite E; reflexivity]. destruct (cell_at h y) as [[]|]; try reflexivity. rewrite !reb_vec. reflexivity. Qed.
Lemma maybe_ext : forall A B (f g : A -> option B) x, (forall y, f y = g y) -> maybe f x = maybe g x.
Proof. intros A B f g [y|] H; cbn; [rewrite H|]; reflexivity. Qed.
Lemma reb_value : forall y c, cell_at h' y = Some (CTerm c) -> a_term h' y =
      opt_bind (a_cfg h (ot_cfg c)) (fun k => opt_bind (maybe (a_hterm h) (ot_h c)) (fun x => opt_bind (a_vec h (ot_exp c)) (fun e =>
      opt_bind (maybe (a_vec h) (ot_f c)) (fun f => opt_bind (maybe (a_vec h) (ot_g c)) (fun g => Some (mkTerm (ot_kind c) k x (ot_const c) e f g (ot_fshift c))))))).
Proof.
  intros y c C. unfold a_term. rewrite C, reb_cfg, reb_vec, (maybe_ext _ _ _ _ (ot_h c) reb_hterm), (maybe_ext _ _ _ _ (ot_f c) reb_vec), (maybe_ext _ _ _ _ (ot_g c) reb_vec). reflexivity.
Qed.
Lemma reb_term : forall y, y <> i -> a_term h' y = a_term h y.
Proof.
  intros y N. destruct (reb_or y) as [[_ C]|[-> _]]; [|contradiction]. destruct (cell_at h y) as [c|] eqn:D; [|unfold a_term; rewrite C, D; reflexivity].
  destruct c; try (unfold a_term; rewrite C, D; reflexivity). rewrite (reb_value y o0 C). unfold a_term. rewrite D. reflexivity.
Qed.
Lemma reb_tg : forall y, y <> i -> tg h' y = tg h y.
Proof. intros y N. unfold tg, as_. destruct (reb_or y) as [[_ ->]|[-> _]]; [reflexivity|contradiction]. Qed.
Lemma reb_tr : forall y, y <> i -> tr h' y = tr h y.
Proof. intros y N. unfold tr, as_. destruct (reb_or y) as [[_ ->]|[-> _]]; [|contradiction]. destruct (opt_bind _ _); [|reflexivity]. do 2 f_equal. apply flat_map_ext, reb_hr. Qed.
Lemma reb_dict : forall y, a_dict h' y = a_dict h y.
Proof.
  intros y. unfold a_dict. destruct (reb_or y) as [[_ ->]|[-> ->]]; [|rewrite E; reflexivity]. destruct (cell_at h y) as [[]|]; try reflexivity.
  apply opt_map_ext. intros kv _. unfold a_list. destruct (reb_or (snd kv)) as [[_ ->]|[-> ->]]; [|rewrite E; reflexivity]. destruct (cell_at h (snd kv)) as [[]|]; try reflexivity.
  rewrite (opt_map_ext _ _ (a_vec h') (a_vec h)); [reflexivity|]. intros x _. apply reb_vec.
Qed.
Lemma reb_dr : forall y, dr h' y = dr h y.
Proof.
  intros y. unfold dr. rewrite reb_as by reflexivity. destruct (as_ is_dict h y); [|reflexivity]. apply flat_map_ext. intros kl. rewrite reb_as by reflexivity. reflexivity.
Qed.
Lemma reb_model : forall y, a_model h' y = a_model h y.
Proof.
  intros y. unfold a_model. destruct (reb_or y) as [[_ ->]|[-> ->]]; [|rewrite E; reflexivity]. destruct (cell_at h y) as [[]|]; try reflexivity.
  rewrite (opt_map_ext _ _ (a_hterm h') (a_hterm h)); [reflexivity|]. intros x _. apply reb_hterm.
Qed.
Lemma reb_mr : forall y, mr h' y = mr h y.
Proof. intros y. unfold mr. rewrite reb_as by reflexivity. destruct (as_ is_model h y); [|reflexivity]. apply flat_map_ext. exact reb_hr. Qed.
End Rebind.

(** * Choosing a delta *)
Lemma term_parts : forall h l (t : term T), a_term h l = Some t -> exists o, cell_at h l = Some (CTerm o) /\ t_kind t = ot_kind o /\ t_const t = ot_const o /\ t_fshift t = ot_fshift o /\
  a_cfg h (ot_cfg o) = Some (t_cfg t) /\ maybe (a_hterm h) (ot_h o) = Some (t_h t) /\ a_vec h (ot_exp o) = Some (t_exp t) /\
  maybe (a_vec h) (ot_f o) = Some (t_f t) /\ maybe (a_vec h) (ot_g o) = Some (t_g t).
Proof.
  intros h l t E. unfold a_term in E. destruct (cell_at h l) as [[]|] eqn:F; try discriminate. exists o. split; [reflexivity|].
  destruct (a_cfg h (ot_cfg o)) as [c|] eqn:C; [|discriminate]. destruct (maybe (a_hterm h) (ot_h o)) as [ht|] eqn:Hh; [|discriminate].
  destruct (a_vec h (ot_exp o)) as [e|] eqn:X; [|discriminate]. destruct (maybe (a_vec h) (ot_f o)) as [fv|] eqn:V; [|discriminate].
  destruct (maybe (a_vec h) (ot_g o)) as [g|] eqn:Y; [|discriminate]. cbn in E. injection E as <-. cbn. repeat split; reflexivity.
Qed.

Lemma NoDup_app_r : forall A (l l' : list A), NoDup (l ++ l') -> NoDup l'.
Proof. induction l as [|x l IH]; cbn; intros l' N; [exact N|]. inversion N. auto. Qed.
Lemma NoDup_app_disj : forall A (l l' : list A), NoDup (l ++ l') -> forall x, In x l -> In x l' -> False.
Proof. induction l as [|y l IH]; cbn; intros l' N x X Y; [exact X|]. inversion N; subst. destruct X as [->|X]; [|eauto]. apply H1, in_or_app. auto. Qed.

Lemma sim_increment : forall n h x dv l t, sealed 0 h -> a_vec h x = Some dv -> a_term h l = Some t -> (forall y, In y (tg h l) -> n <= y) ->
  (forall y, In y (tg h l) -> ~ In y (tr h l)) ->
  sim n 0 (o_increment_g x l) h (increment_g t dv) (fun h' _ t' => a_term h' l = Some t' /\ (h' = h \/ vecs (tg h l) h h')).
Proof.
  intros n h x dv l t S X Et N D. destruct (term_parts h l t Et) as (o & C & P1 & P2 & P3 & P4 & P5 & P6 & P7 & P8).
  assert (G : good 0 h) by (split; exact S). unfold o_increment_g, increment_g. eapply sim_load; [apply as_term; exact C|]. rewrite P1.
  assert (TG : tg h l = olist (ot_g o)) by (unfold tg; rewrite (as_term _ _ _ C); reflexivity).
  assert (TR : tr h l = ot_exp o :: olist (ot_f o) ++ flat_map (hr h) (olist (ot_h o))) by (unfold tr; rewrite (as_term _ _ _ C); reflexivity).
  assert (MAIN : sim n 0 (match ot_g o with None => lift (Err AttributeError) | Some g => v <~ load a_vec x ;; iadd g v end) h
    (match t_g t with None => Err AttributeError | Some g => g' <- vadd_ip g dv ;; Ok (mkTerm (ot_kind o) (t_cfg t) (t_h t) (t_const t) (t_exp t) (t_f t) (Some g') (t_fshift t)) end)
    (fun h' _ t' => a_term h' l = Some t' /\ (h' = h \/ vecs (tg h l) h h'))).
  { destruct (ot_g o) as [g|] eqn:Eg; cbn in P8.
    - destruct (a_vec h g) as [gv|] eqn:Vg; [|discriminate]. cbn in P8. injection P8 as <-. rewrite TG in N, D. cbn in N, D.
      assert (Cg : cell_at h g = Some (CVec gv)) by (unfold a_vec in Vg; destruct (cell_at h g) as [[]|]; congruence).
      eapply sim_load; [exact X|]. apply sim_last. eapply sim_post; [apply sim_iadd; [exact Cg|apply N; auto|exact G]|].
      intros h1 [] w _ _ ->. pose proof (vecs_set h g gv w Cg) as V. rewrite TG. split; [|auto]. rewrite TR in D. specialize (D g (or_introl eq_refl)).
      assert (Cl : cell_at (setn h g (CVec w)) l = Some (CTerm o)) by (apply (vecs_cell [g] h _ V); [exact C|discriminate]).
      unfold a_term. rewrite Cl, (vecs_cfg [g] h _ V), P4. cbn [opt_bind].
      assert (E1 : maybe (a_hterm (setn h g (CVec w))) (ot_h o) = maybe (a_hterm h) (ot_h o)).
      { destruct (ot_h o); [|reflexivity]. cbn. rewrite (vecs_hterm [g] h _ V); [reflexivity|]. intros y Y [<-|[]]. apply D. right. apply in_or_app. right. cbn. rewrite app_nil_r. exact Y. }
      assert (E2 : maybe (a_vec (setn h g (CVec w))) (ot_f o) = maybe (a_vec h) (ot_f o)).
      { destruct (ot_f o); [|reflexivity]. cbn. rewrite (vecs_vec [g] h _ V); [reflexivity|]. intros [<-|[]]. apply D. right. cbn. auto. }
      rewrite E1, P5. cbn [opt_bind]. rewrite (vecs_vec [g] h _ V) by (intros [Z|[]]; apply D; left; auto). rewrite P6. cbn [opt_bind]. rewrite E2, P7. cbn [opt_bind].
      rewrite Eg. cbn [maybe]. rewrite (vec_of _ _ _ (at_set h g (CVec w) (at_lt _ _ _ Cg))). cbn. rewrite P2, P3. reflexivity.
    - injection P8 as <-. apply sim_err. exact G. }
  destruct (ot_kind o).
  - apply sim_err. exact G.
  - apply sim_ret; [exact G|]. auto.
  - exact MAIN.
  - exact MAIN.
Qed.

Lemma sim_increments : forall n x dv ts vs h, sealed 0 h -> a_vec h x = Some dv -> x < n -> Forall2 (fun l t => a_term h l = Some t) ts vs ->
  (forall y, In y (flat_map (tg h) ts) -> n <= y) -> NoDup (flat_map (tg h) ts) -> (forall y, In y (flat_map (tg h) ts) -> ~ In y (flat_map (tr h) ts)) ->
  sim n 0 (each (o_increment_g x) ts) h (mapM (fun t => increment_g t dv) vs)
    (fun h' _ vs' => Forall2 (fun l t => a_term h' l = Some t) ts vs' /\ exists W, (forall y, In y W -> In y (flat_map (tg h) ts)) /\ vecs W h h').
Proof.
  intros n x dv ts. induction ts as [|l ts IH]; intros vs0 h S X Lx F0 N ND D; inversion F0 as [|? t ? vs E F]; subst; cbn [each mapM].
  - apply sim_ret; [split; exact S|]. split; [constructor|]. exists []. split; [intros y []|apply vecs_refl].
  - cbn in N, ND, D. eapply sim_bind.
    { eapply (sim_increment n); eauto; intros y Y; [apply N, in_or_app; auto|]. intros Z. apply (D y); apply in_or_app; auto. }
    intros h1 [] t' K1 [S1 _] [E1 V]. assert (exists W, (forall y, In y W -> In y (tg h l)) /\ vecs W h h1) as (W & WI & V1).
    { destruct V as [->|V]; [exists []; split; [intros y []|apply vecs_refl]|exists (tg h l); auto]. }
    assert (EG : flat_map (tg h1) ts = flat_map (tg h) ts) by (apply flat_map_ext, (vecs_tg W h h1 V1)).
    assert (ER : flat_map (tr h1) ts = flat_map (tr h) ts) by (apply flat_map_ext, (vecs_tr W h h1 V1)).
    assert (DW : forall y, In y (flat_map (tg h) ts) -> ~ In y W).
    { intros y Y Z. apply WI in Z. clear - ND Y Z. apply (NoDup_app_disj _ _ _ ND y Z Y). }
    assert (F1 : Forall2 (fun l t => a_term h1 l = Some t) ts vs).
    { clear - F V1 WI D DW. assert (Q : forall l', In l' ts -> a_term h1 l' = a_term h l').
      { intros l' L'. apply (vecs_term W h h1 V1). intros y [Y|Y] Z.
        - apply (DW y); [apply in_flat_map; eauto|exact Z].
        - apply (D y); apply in_or_app; [left; auto|right; apply in_flat_map; eauto]. }
      clear - F Q. induction F as [|a b ts vs E F IH]; constructor; [rewrite Q by (left; reflexivity); exact E|]. apply IH. intros. apply Q. right. assumption. }
    eapply sim_bind.
    { apply IH; auto.
      - rewrite (vecs_vec W h h1 V1); [exact X|]. intros Z. apply WI in Z. assert (n <= x) by (apply N, in_or_app; auto). lia.
      - rewrite EG. intros y Y. apply N, in_or_app. auto.
      - rewrite EG. eapply NoDup_app_r, ND.
      - rewrite EG, ER. intros y Y Z. apply (D y); apply in_or_app; auto. }
    intros h2 us vs' K2 G2 (F2 & W' & WI' & V2). rewrite EG in WI'. apply sim_ret; [exact G2|]. split.
    + constructor; [|exact F2]. rewrite (vecs_term W' h1 h2 V2); [exact E1|]. rewrite (vecs_tg W h h1 V1), (vecs_tr W h h1 V1). intros y [Y|Y] Z; apply WI' in Z.
      * apply (NoDup_app_disj _ _ _ ND y Y Z).
      * apply (D y); apply in_or_app; auto.
    + exists (W ++ W'). split; [|eapply vecs_app; eassumption]. cbn. intros y Y. apply in_or_app. apply in_app_or in Y as [Y|Y]; auto.
Qed.

(** A block whose cells may also refer to the arrays [Q]. *)
Definition within (Q : list loc) (lo hi : nat) h : Prop :=
  forall y, lo <= y < hi -> exists c, cell_at h y = Some c /\ forall z, In z (refs c) -> lo <= z < hi \/ In z Q.

Lemma sim_init_full : forall mo n h e v x dv, sealed 0 h -> block n (List.length h) h -> n <= e < List.length h -> a_eq h e = Some v -> sep mo h e -> a_vec h x = Some dv -> x < n ->
  sim n 0 (o_init_full e x) h (init_full v dv) (fun h' _ v' => a_eq h' e = Some v' /\ a_owner h' e = Some mo /\ List.length h' = List.length h /\ within [x] n (List.length h) h').
Proof.
  intros mo n h e v x dv S BK Le Ev [SO (gr & i & m & tl & d & ts & D & C1 & C2 & C3 & N1 & N2 & N3 & N4 & N5)] X Lx. assert (G : good 0 h) by (split; exact S).
  assert (BR : forall l c, n <= l -> cell_at h l = Some c -> forall y, In y (refs c) -> n <= y < List.length h).
  { intros l c L E. destruct (BK l) as [c' [E' R]]; [split; [exact L|eapply at_lt, E]|]. rewrite E in E'. injection E' as <-. exact R. }
  assert (Li : n <= i) by (apply (BR e _ (proj1 Le) C1); cbn; auto).
  assert (Lt : n <= tl) by (apply (BR e _ (proj1 Le) C1); cbn; auto).
  assert (Lts : forall l, In l ts -> n <= l) by (intros l L; apply (BR tl _ Lt C2); exact L).
  assert (LG : forall y, In y (flat_map (tg h) ts) -> n <= y).
  { intros y Y. apply in_flat_map in Y as [l [L Y]]. unfold tg, as_ in Y. destruct (cell_at h l) as [[]|] eqn:E; cbn in Y; try contradiction.
    apply (BR l _ (Lts l L) E). cbn. rewrite !in_app_iff. tauto. }
  unfold a_eq in Ev. rewrite C1 in Ev. destruct (a_term h i) as [it|] eqn:Ti; [|discriminate]. unfold a_list in Ev. rewrite C2 in Ev.
  destruct (opt_map (a_term h) ts) as [vs|] eqn:Tt; [|discriminate]. destruct (a_dict h d) as [V|] eqn:Td; [|discriminate]. cbn in Ev. injection Ev as <-.
  apply opt_map_some in Tt. destruct (term_parts h i it Ti) as (o & C & P1 & P2 & P3 & P4 & P5 & P6 & P7 & P8).
  unfold o_init_full, init_full. cbn [e_index e_terms e_green e_fargs]. eapply sim_load; [unfold as_; rewrite C1; reflexivity|]. cbn beta iota.
  assert (Go : ot_g o = None). { unfold tg in N3. rewrite (as_term _ _ _ C) in N3. destruct (ot_g o); [discriminate|reflexivity]. }
  assert (CX : cell_at h x = Some (CVec dv)) by (unfold a_vec in X; destruct (cell_at h x) as [[]|]; congruence).
  unfold o_set_f_arg, set_f_arg.
  eapply sim_bind with (R := fun h' _ it' => h' = setn h i (CTerm (with_f o x)) /\ a_term h' i = Some it' /\ ot_h o = None).
  { eapply sim_load; [apply as_term; exact C|]. destruct (ot_h o) as [hl|] eqn:Eh; cbn in P5.
    - destruct (a_hterm h hl); [|discriminate]. cbn in P5. injection P5 as <-. apply sim_err. exact G.
    - injection P5 as <-. eapply sim_bind; [apply sim_checked; [exact P4|exact CX|exact G]|].
      intros h1 [] w _ _ [-> ->]. unfold sim, store. cbn [fst snd]. split; [apply keeps_set; exact Li|]. split.
      + apply good_set; [exact G|]. cbn. intros y Y. pose proof (at_lt _ _ _ C). assert (Lxh : x < List.length h) by lia.
        pose proof (BR i _ Li C) as R. cbn [refs] in R.
        assert (Z : y = x \/ In y (refs (CTerm o))). { cbn [refs]. rewrite Eh, Go in *. cbn in *. rewrite ?in_app_iff. intuition. }
        destruct Z as [->|Z]; [lia|]. specialize (R y Z). lia.
      + split; [reflexivity|]. split; [|reflexivity]. rewrite (reb_value h i o (with_f o x) C i (with_f o x)) by (apply at_set; eapply at_lt, C). unfold with_f. cbn [ot_cfg ot_h ot_exp ot_f ot_g ot_kind ot_const ot_fshift].
        rewrite P4. cbn [opt_bind]. rewrite Eh, P6, P8. cbn. rewrite X. cbn. rewrite P1, P2, P3. reflexivity. }
  intros h1 [] it' K1 [S1 _] (-> & Ti' & Eh). set (h1 := setn h i (CTerm (with_f o x))) in *.
  assert (NE : forall c, cell_at h e = Some (CEq gr i m tl d) -> cell_at h c <> Some (CTerm o) -> c <> i) by (intros c _ Q ->; apply Q, C).
  assert (C2' : cell_at h1 tl = Some (CList ts)) by (unfold h1; rewrite at_other; [exact C2|]; intros ->; congruence).
  assert (C1' : cell_at h1 e = Some (CEq gr i m tl d)) by (unfold h1; rewrite at_other; [exact C1|]; intros ->; congruence).
  eapply sim_load; [unfold as_; rewrite C2'; reflexivity|].
  assert (NI : forall l, In l ts -> l <> i) by (intros l L ->; contradiction).
  assert (EG : flat_map (tg h1) ts = flat_map (tg h) ts) by (apply (keep_flat h h1); intros l L; apply (reb_tg h i o _ C); auto).
  assert (ER : flat_map (tr h1) ts = flat_map (tr h) ts) by (apply (keep_flat h h1); intros l L; apply (reb_tr h i o _ C); auto).
  assert (Lh1 : List.length h1 = List.length h) by apply len_set.
  eapply sim_bind.
  { apply (sim_increments n x dv ts vs h1); auto.
    - unfold h1. rewrite (reb_vec h i o _ C). exact X.
    - clear - Tt C NI. induction Tt as [|a b ts vs E F IH]; constructor; [unfold h1; rewrite (reb_term h i o _ C) by (apply NI; left; reflexivity); exact E|]. apply IH. intros. apply NI. right. assumption.
    - rewrite EG. exact LG.
    - rewrite EG. exact N4.
    - rewrite EG, ER. intros y Y. apply (N5 y Y). }
  intros h2 us vs' K2 G2 (F2 & W & WI & V2). rewrite EG in WI. apply sim_ret; [exact G2|].
  assert (LW : List.length h2 = List.length h) by (rewrite (proj1 V2); exact Lh1).
  split; [|split; [|split; [exact LW|]]].
  - unfold a_eq. rewrite (vecs_cell W h1 h2 V2 e _ C1') by discriminate.
    rewrite (vecs_term W h1 h2 V2); [rewrite Ti'|].
    + cbn [opt_bind]. unfold a_list. rewrite (vecs_cell W h1 h2 V2 tl _ C2') by discriminate. rewrite (proj2 (opt_map_some _ _ _ _ _) F2). cbn [opt_bind].
      rewrite (vecs_dict W h1 h2 V2); [unfold h1; rewrite (reb_dict h i o _ C), Td; reflexivity|].
      unfold h1. rewrite (reb_dr h i o _ C). intros y Y Z. apply WI in Z. destruct (N5 y Z) as (_ & _ & Q & _). exact (Q Y).
    + assert (C' : cell_at h1 i = Some (CTerm (with_f o x))) by (apply at_set; eapply at_lt, C).
      unfold tg, tr. rewrite (as_term _ _ _ C'). unfold with_f. cbn [ot_g ot_exp ot_f ot_h]. rewrite Go, Eh. cbn. intros y Y Z. apply WI in Z.
      destruct Y as [[]|[<-|[<-|[]]]].
      * apply (proj1 (N5 _ Z)). unfold tr. rewrite (as_term _ _ _ C). left. reflexivity.
      * specialize (LG _ Z). lia.
  - unfold a_owner in SO. rewrite C1 in SO. unfold a_owner. rewrite (vecs_cell W h1 h2 V2 e _ C1') by discriminate. rewrite (vecs_model W h1 h2 V2).
    + unfold h1. rewrite (reb_model h i o _ C). exact SO.
    + unfold h1. rewrite (reb_mr h i o _ C). intros y Y Z. apply WI in Z. destruct (N5 y Z) as (_ & _ & _ & Q). exact (Q Y).
  - intros y Y. destruct (Nat.eq_dec y i) as [->|NY].
    + exists (CTerm (with_f o x)). split; [apply (vecs_cell W h1 h2 V2); [apply at_set; eapply at_lt, C|discriminate]|].
      intros z Z. pose proof (BR i _ Li C) as R. cbn [refs] in R.
      assert (Q : z = x \/ In z (refs (CTerm o))). { cbn [refs with_f ot_cfg ot_exp ot_h ot_f ot_g ot_model] in *. rewrite Eh, Go in *. cbn in *. rewrite in_app_iff. intuition. }
      destruct Q as [->|Q]; [right; left; reflexivity|]. left. apply R, Q.
    + destruct (BK y Y) as [c [E R]]. assert (E1 : cell_at h1 y = Some c) by (unfold h1; rewrite at_other by exact NY; exact E).
      destruct (vecs_or W h1 h2 V2 y) as [Q|(u & w & _ & Q1 & Q2)].
      * exists c. rewrite Q, E1. split; [reflexivity|]. intros z Z. left. apply R, Z.
      * exists (CVec w). split; [exact Q2|]. intros z [].
Qed.

End Separate.
