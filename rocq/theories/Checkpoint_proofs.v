(** Lemmas on Checkpoint.v. *)
From Coq Require Import String ZArith List Bool Lia Permutation.
From Verif Require Import Base NdArray Config Model Space Render Term Equation NdArray_proofs Equation_proofs System System_proofs HModel Cache Checkpoint Spec_checkpoint.
Import ListNotations.
Open Scope list_scope.
Open Scope Z_scope.

Lemma count_eq : forall T (e : list (Z * list (equation T))), count e = n_equations e.
Proof.
  intros T e. unfold count, n_equations. induction e as [|[k l] e IH]; [reflexivity|]. cbn [flat_map map snd]. rewrite app_length, Nat2Z.inj_add, IH. reflexivity.
Qed.

(** * JSON *)
Section Json.
Context {T : Type}.

Lemma mapM_map_ok : forall A B C (f : B -> result C) (g : A -> B) (h : A -> C) l,
  (forall x, In x l -> f (g x) = Ok (h x)) -> mapM f (map g l) = Ok (map h l).
Proof.
  induction l as [|x l IH]; intros H; [reflexivity|]. cbn [map mapM]. rewrite (H x (or_introl eq_refl)). cbn [bind].
  rewrite IH by (intros y Y; apply H; right; exact Y). reflexivity.
Qed.

Lemma vec_roundtrip : forall v, vec_ok v -> vec_of_json (T := T) (json_of_vec v) = Ok v.
Proof.
  intros [f l] H. unfold vec_ok in H. cbn [isf v2] in H. unfold vec_of_json, json_of_vec, is_class. cbn [jget jfind String.eqb Ascii.eqb Bool.eqb bind as_str as_arr guard isf v2].
  destruct f.
  - rewrite (mapM_map_ok _ _ _ _ _ (fun z => z)) by reflexivity. rewrite map_id. reflexivity.
  - specialize (H eq_refl). rewrite (mapM_map_ok _ _ _ _ _ (fun z => z)); [rewrite map_id; reflexivity|].
    intros z I. cbn [isf]. f_equal. rewrite Forall_forall in H. destruct (H z I) as [y ->]. rewrite (Z.mul_comm 2 y), Z.div_mul by lia. apply Z.mul_comm.
Qed.

Lemma term_roundtrip : forall h, vec_ok (ht_psi h) -> vec_ok (ht_phi h) -> term_of_json (T := T) (json_of_term h) = Ok h.
Proof.
  intros [c psi phi dag g i w] A B. cbn [ht_psi ht_phi] in A, B. unfold term_of_json, json_of_term, is_class, dag_of_json, json_of_dag.
  cbn [ht_type ht_psi ht_phi ht_dag ht_coupling ht_index ht_freq].
  cbn [jget jfind String.eqb Ascii.eqb Bool.eqb bind as_str guard]. rewrite (vec_roundtrip psi A). cbn [bind]. rewrite (vec_roundtrip phi B). cbn [bind].
  destruct dag; cbn [String.eqb Ascii.eqb Bool.eqb bind as_num as_int]; (destruct (Z.leb_spec 0 (Z.of_nat i)); [|lia]); cbn [guard bind as_num]; rewrite Nat2Z.id; reflexivity.
Qed.

Lemma ham_roundtrip : forall h, (forall x, In x (h_terms h) -> vec_ok (ht_psi x) /\ vec_ok (ht_phi x)) -> ham_of_json (T := T) (json_of_ham h) = Ok h.
Proof.
  intros [ts fs d t] H. cbn [h_terms] in H. unfold ham_of_json, json_of_ham, is_class. cbn [h_terms h_freqs h_dim h_hop].
  cbn [jget jfind String.eqb Ascii.eqb Bool.eqb bind as_str as_arr guard].
  rewrite (mapM_map_ok _ _ _ _ _ (fun x => x)) by (intros x X; apply term_roundtrip; apply (H x X)). cbn [bind].
  rewrite (mapM_map_ok _ _ _ _ _ (fun x => x)) by reflexivity. cbn [bind as_int as_num]. rewrite !map_id, Nat2Z.id. reflexivity.
Qed.

(** What comes back: the absolute extent has become explicit. *)
Definition pin (m : model T) : model T :=
  mkModel (m_lattice m) (m_temp m) (m_ham m) (m_mps m) (m_pe m) (m_pn m) (absolute_extent m) (m_ntypes m).

Lemma as_option_of : forall x : option Z, as_option (T := T) (json_of_option x) = Ok x.
Proof. intros [x|]; reflexivity. Qed.

Lemma model_roundtrip : forall m : model T, storable m -> model_of_json (json_of_model m) = Ok (pin m).
Proof.
  intros m H. unfold model_of_json, json_of_model. cbn [jget jfind String.eqb Ascii.eqb Bool.eqb bind as_num as_arr as_int].
  rewrite (ham_roundtrip _ H). cbn [bind]. rewrite as_option_of. cbn [bind].
  rewrite (mapM_map_ok _ _ _ _ _ (fun x => x)) by reflexivity. cbn [bind].
  rewrite (mapM_map_ok _ _ _ _ _ (fun x => x)) by reflexivity. cbn [bind]. rewrite as_option_of. cbn [bind]. rewrite !map_id, Nat2Z.id. reflexivity.
Qed.

Lemma pin_ae : forall m, absolute_extent (pin m) = absolute_extent m.
Proof. intros m. unfold pin. destruct (absolute_extent m) as [e|] eqn:E; [reflexivity|]. unfold absolute_extent in *. cbn [m_aext m_pe]. destruct (m_aext m); [discriminate|exact E]. Qed.
Lemma pin_pin : forall m, pin (pin m) = pin m.
Proof. intros m. unfold pin at 1. rewrite pin_ae. reflexivity. Qed.
Lemma pin_same : forall m, same_attributes m (pin m).
Proof. intros m. constructor; try reflexivity. apply pin_ae. Qed.
Lemma pin_storable : forall m, storable m -> storable (pin m).
Proof. intros m H. exact H. Qed.

(** Building from models with the same attributes. *)
Lemma mapM_ext_all : forall A B (f g : A -> result B) l, (forall x, f x = g x) -> mapM f l = mapM g l.
Proof. induction l as [|x l IH]; intros H; [reflexivity|]. cbn [mapM]. rewrite H, IH by exact H. reflexivity. Qed.

Lemma same_generalized : forall (m m' : model T) ord, same_attributes m m' -> generate_space m' = generate_space m /\ forall old sp, generalized_on old ord m' sp = generalized_on old ord m sp.
Proof.
  intros [a t h mps pe pn ae n] [a' t' h' mps' pe' pn' ae' n'] ord [A B C D E F G H]. cbn [m_lattice m_temp m_ham m_mps m_pe m_pn m_ntypes] in *. subst.
  set (m := mkModel a t h mps pe pn ae n) in *. set (m' := mkModel a t h mps pe pn ae' n) in *. split.
  - unfold generate_space. rewrite H. reflexivity.
  - intros old sp. unfold generalized_on.
    assert (ET : forall x y, terms_of m' x y = terms_of m x y) by (intros x y; unfold terms_of; rewrite H; reflexivity).
    assert (EI : forall x, initialize_terms m' x = initialize_terms m x).
    { intros x. unfold initialize_terms. rewrite (mapM_ext_all _ _ (terms_of m' x) (terms_of m x)) by (intros y; apply ET). reflexivity. }
    assert (EE : forall x, equation_from m' x = equation_from m x) by (intros x; unfold equation_from; rewrite EI; reflexivity).
    assert (EG : forall kv, gen_block m' kv = gen_block m kv).
    { intros kv. unfold gen_block. rewrite (mapM_ext_all _ _ (fun c => equation_from m' (cfg c)) (fun c => equation_from m (cfg c))) by (intros c; apply EE). reflexivity. }
    rewrite (mapM_ext_all _ _ (gen_block m') (gen_block m)) by exact EG. reflexivity.
Qed.
End Json.

Section Files.
Context {T : Type}.
Variable ord : string -> list vec -> list vec.

(** * Building the equations again on an f_arg_list that is there already *)
Lemma generalized_none : forall (m : model T) sp, generalized_on None ord m sp = generalized ord m sp.
Proof. reflexivity. Qed.

Definition appends (d : sdict (list vec)) (l : list (string * vec)) : sdict (list vec) :=
  fold_left (fun acc kv => sappend (fst kv) (snd kv) acc) l d.
Definition pairs (d : sdict (list vec)) : list (string * vec) := flat_map (fun kv => map (pair (fst kv)) (snd kv)) d.
Definition of_key (k : string) (l : list (string * vec)) : list vec := map snd (filter (fun kv => String.eqb (fst kv) k) l).

Lemma appends_app : forall d a b, appends d (a ++ b) = appends (appends d a) b.
Proof. intros. apply fold_left_app. Qed.
Lemma append_list : forall k vs d, fold_left (fun acc v => sappend k v acc) vs d = appends d (map (pair k) vs).
Proof. intros k vs. induction vs as [|v vs IH]; intros d; [reflexivity|]. apply IH. Qed.
Lemma append_master_pairs : forall e d, append_master d e = appends d (pairs e).
Proof.
  unfold append_master. induction e as [|[k vs] e IH]; intros d; [reflexivity|]. cbn [fold_left fst snd]. rewrite IH, append_list.
  unfold pairs. cbn [flat_map fst snd]. rewrite appends_app. reflexivity.
Qed.
Lemma master_pairs : forall (es : list (equation T)) d, fold_left (fun acc e => append_master acc (e_fargs e)) es d = appends d (flat_map (fun e => pairs (e_fargs e)) es).
Proof.
  induction es as [|e es IH]; intros d; [reflexivity|]. cbn [fold_left flat_map]. rewrite IH, append_master_pairs, appends_app. reflexivity.
Qed.

Lemma sappend_in : forall k v (d : sdict (list vec)), NoDup (map fst d) -> In k (map fst d) ->
  sappend k v d = map (fun kv => (fst kv, snd kv ++ (if String.eqb (fst kv) k then [v] else []))) d.
Proof.
  induction d as [|[k0 l] d IH]; intros N I; [destruct I|]. cbn [sappend map fst snd] in *. inversion N; subst.
  destruct (String.eqb_spec k0 k) as [->|NE].
  - f_equal. rewrite <- (map_id d) at 1. apply map_ext_in. intros [k1 l1] I1. cbn [fst snd].
    destruct (String.eqb_spec k1 k) as [->|]; [|rewrite app_nil_r; reflexivity]. exfalso. apply H1. apply (in_map fst) in I1. exact I1.
  - rewrite app_nil_r. f_equal. apply IH; [assumption|]. destruct I as [I|I]; [contradiction|exact I].
Qed.
Lemma appends_in : forall l (d : sdict (list vec)), NoDup (map fst d) -> (forall kv, In kv l -> In (fst kv) (map fst d)) ->
  appends d l = map (fun kv => (fst kv, snd kv ++ of_key (fst kv) l)) d.
Proof.
  induction l as [|[k v] l IH]; intros d N I.
  - cbn. rewrite <- (map_id d) at 1. apply map_ext. intros [k0 l0]. cbn. rewrite app_nil_r. reflexivity.
  - cbn [appends fold_left]. change (appends (sappend k v d) l = map (fun kv => (fst kv, snd kv ++ of_key (fst kv) ((k, v) :: l))) d).
    rewrite sappend_in; [|exact N|exact (I _ (or_introl eq_refl))].
    assert (K : map fst (map (fun kv : string * list vec => (fst kv, snd kv ++ (if String.eqb (fst kv) k then [v] else []))) d) = map fst d) by (rewrite map_map; reflexivity).
    rewrite IH; [|rewrite K; exact N|rewrite K; intros kv X; apply I; right; exact X].
    rewrite map_map. apply map_ext. intros [k0 l0]. cbn [fst snd]. rewrite <- app_assoc. do 2 f_equal.
    unfold of_key. cbn [filter fst]. rewrite (String.eqb_sym k k0). destruct (String.eqb k0 k); reflexivity.
Qed.
Lemma appends_val : forall l (d : sdict (list vec)), good_dict d -> good_dict (appends d l) /\
  (forall k, val k (appends d l) = val k d ++ of_key k l) /\ (forall kv, In kv l -> In (fst kv) (map fst (appends d l))) /\
  (forall k, In k (map fst d) -> In k (map fst (appends d l))).
Proof.
  induction l as [|[k v] l IH]; intros d G.
  - cbn. split; [exact G|]. split; [intros k; rewrite app_nil_r; reflexivity|]. split; [intros kv []|auto].
  - cbn [appends fold_left fst snd]. change (fold_left _ l (sappend k v d)) with (appends (sappend k v d) l).
    destruct (IH (sappend k v d) (good_sappend k v d G)) as (A & B & C & D). split; [exact A|]. split; [|split].
    + intros k0. rewrite B, val_sappend, <- app_assoc. f_equal. unfold of_key. cbn [filter fst]. destruct (String.eqb k k0); reflexivity.
    + intros kv [<-|X]; [|apply C, X]. apply D. apply keys_sappend. left. reflexivity.
    + intros k0 X. apply D. apply keys_sappend. right. exact X.
Qed.

Lemma dedup_covered : forall l seen, (forall v, In v l -> In (v2 v) seen) -> dedup seen l = [].
Proof.
  induction l as [|v l IH]; intros seen H; [reflexivity|]. cbn [dedup].
  replace (existsb (eqlZ (v2 v)) seen) with true; [apply IH; intros; apply H; right; assumption|].
  symmetry. apply existsb_exists. exists (v2 v). split; [apply H; left; reflexivity|apply eqlZ_refl].
Qed.
Lemma dedup_kept : forall a b seen, NoDup (map v2 a) -> (forall v, In v a -> ~ In (v2 v) seen) -> (forall v, In v b -> In (v2 v) (map v2 a ++ seen)) ->
  dedup seen (a ++ b) = a.
Proof.
  induction a as [|v a IH]; intros b seen N D C; [apply dedup_covered; exact C|]. cbn [app dedup]. cbn [map] in N. inversion N; subst.
  destruct (existsb (eqlZ (v2 v)) seen) eqn:X.
  - exfalso. apply existsb_exists in X. destruct X as [y [Y Z]]. apply eqlZ_eq in Z. subst y. exact (D v (or_introl eq_refl) Y).
  - f_equal. apply IH; [assumption| |].
    + intros w W [E|E]; [apply H1; rewrite E; apply in_map, W|exact (D w (or_intror W) E)].
    + intros w W. specialize (C w W). cbn [map app] in C. apply in_or_app. destruct C as [C|C]; [right; left; exact C|].
      apply in_app_or in C. destruct C as [C|C]; [left; exact C|right; right; exact C].
Qed.

Lemma regenerated : forall (m : model T) sp g fl, settled ord -> generalized ord m sp = Ok (g, fl) -> generalized_on (Some fl) ord m sp = Ok (g, fl).
Proof.
  intros m sp g fl [PO ID] E. unfold generalized in E. unfold generalized_on.
  destruct (mapM (gen_block m) sp) as [blocks|]; [|discriminate]. cbn [bind] in *. destruct (green_equation m) as [ge|]; [|discriminate]. cbn [bind] in *.
  cbv zeta in *. destruct (predict_total_terms m _) as [u|]; [|discriminate]. cbn [bind] in *. injection E as E1 E2. rewrite <- E2 at 1. rewrite E1 in *. rewrite <- E2. do 2 f_equal.
  rewrite !master_pairs. set (L := flat_map _ _).
  destruct (appends_val L []) as ([N _] & V & C & _); [split; constructor|].
  set (M := appends [] L) in *.
  assert (K : map fst (determine_unique ord M) = map fst M) by (unfold determine_unique; rewrite map_map; reflexivity).
  rewrite appends_in; [|rewrite K; exact N|rewrite K; exact C].
  unfold determine_unique. rewrite !map_map. apply map_ext_in. intros [k l] I. cbn [fst snd]. f_equal.
  assert (VL : l = of_key k L).
  { specialize (V k). unfold val in V. cbn [sget] in V. cbn [app] in V. rewrite <- V.
    clear - I N. induction M as [|[k0 l0] M IH]; [destruct I|]. cbn [sget map fst] in *. inversion N; subst.
    destruct I as [I|I]; [injection I as -> ->; rewrite String.eqb_refl; reflexivity|].
    destruct (String.eqb_spec k0 k) as [->|]; [exfalso; apply H1; apply (in_map fst) in I; exact I|]. apply IH; assumption. }
  rewrite <- VL. destruct (dedup_spec l []) as (D1 & D2 & D3).
  rewrite dedup_kept; [apply ID| | |].
  - eapply Permutation_NoDup; [|exact D3]. apply Permutation_map. apply Permutation_sym, PO.
  - intros v _ [].
  - intros v Hv. rewrite app_nil_r. apply (Permutation_in (l := map v2 (dedup [] l))); [apply Permutation_map, Permutation_sym, PO|].
    apply D2. split; [apply in_map, Hv|intros []].
Qed.

Lemma last_indep : forall A (l : list A) x d d', last (x :: l) d = last (x :: l) d'.
Proof. induction l as [|y l IH]; intros x d d'; [reflexivity|]. change (last (y :: l) d = last (y :: l) d'). apply IH. Qed.
Lemma final_app : forall a b (d : cdir T), final (a ++ b) d = final b (final a d).
Proof.
  induction a as [|x a IH]; intros b d; [reflexivity|]. cbn [app]. unfold final in *.
  destruct a as [|y a]; cbn [app].
  - destruct b as [|c b]; [reflexivity|]. change (last (x :: c :: b) d) with (last (c :: b) d). apply last_indep.
  - change (last (x :: y :: a ++ b) d) with (last ((y :: a) ++ b) d). change (last (x :: y :: a) d) with (last (y :: a) d). apply IH.
Qed.

(** Nothing a constructor does to the directory changes its result. *)
Lemma init_result : forall m gen fargs eqs lim root d,
  snd (system_init (T := T) ord m gen fargs eqs lim root d) = snd (system_init ord m gen fargs eqs lim false no_files).
Proof.
  intros. unfold system_init. 
  destruct (match gen with Some g => Ok (g, fargs) | None => _ end) as [[g fl]|x]; [|reflexivity].
  destruct (match eqs with Some e => Ok e | None => _ end) as [e|x]; reflexivity.
Qed.

Lemma new_result : forall m lim root d, snd (new_system (T := T) ord m lim root d) = (s <- prime_system ord m ;; Ok (py_of lim s)).
Proof.
  intros. unfold new_system, system_init, prime_system. change (generalized_on None ord m) with (generalized ord m). destruct (generate_space m) as [sp|x]; [|reflexivity]. cbn [bind].
  destruct (generalized ord m sp) as [[g fl]|x]; [|reflexivity]. cbn [bind]. destruct (full_equations fl g) as [e|x]; [|reflexivity]. cbn [bind snd].
  destruct (final_checks e); reflexivity.
Qed.

(** Existing pickles stay as they are. *)
Definition keeps (d d' : cdir T) : Prop :=
  (forall c, c_gen d = Some c -> c_gen d' = Some c) /\ (forall c, c_fargs d = Some c -> c_fargs d' = Some c) /\ (forall c, c_eqs d = Some c -> c_eqs d' = Some c).
Lemma keeps_refl : forall d, keeps d d.
Proof. intros d. repeat split; auto. Qed.
Lemma keeps_trans : forall a b c, keeps a b -> keeps b c -> keeps a c.
Proof. intros a b c [A [B C]] [A' [B' C']]. repeat split; auto. Qed.

(** All the states of a list of operations. *)
Definition allk (ds : list (cdir T)) (d : cdir T) : Prop := forall x, In x ds -> keeps d x.
Lemma allk_final : forall ds d, allk ds d -> keeps d (final ds d).
Proof.
  intros ds d H. unfold final. destruct ds as [|x r]; [apply keeps_refl|]. apply H.
  assert (E : x :: r <> []) by discriminate. revert E. generalize (x :: r). intros l E. clear H.
  induction l as [|y l IH]; [congruence|]. destruct l as [|z l]; [left; reflexivity|]. right. apply IH. discriminate.
Qed.
Lemma allk_app : forall a b d, allk a d -> allk b (final a d) -> allk (a ++ b) d.
Proof. intros a b d A B x H. apply in_app_or in H. destruct H as [H|H]; [exact (A x H)|]. exact (keeps_trans _ _ _ (allk_final a d A) (B x H)). Qed.
Lemma save_keeps : forall m d, allk (save_model m d) d.
Proof. intros m d x [<-|[<-|[]]]; repeat split; cbn; auto. Qed.
Lemma checkpoint_keeps : forall lim g fl e d, allk (checkpoint lim g fl e d) d.
Proof.
  intros lim g fl e d. unfold checkpoint. destruct (too_many lim e); [intros x []|].
  assert (A : forall d, allk (dump put_gen (c_gen d) g d) d).
  { intros d0 x H. unfold dump in H. destruct g as [g0|]; [|destruct H]. destruct (c_gen d0) eqn:E; [destruct H|]. destruct H as [<-|[<-|[]]]; repeat split; cbn; auto; congruence. }
  assert (B : forall d, allk (dump put_fargs (c_fargs d) fl d) d).
  { intros d0 x H. unfold dump in H. destruct fl as [g0|]; [|destruct H]. destruct (c_fargs d0) eqn:E; [destruct H|]. destruct H as [<-|[<-|[]]]; repeat split; cbn; auto; congruence. }
  assert (C : forall d, allk (dump put_eqs (c_eqs d) e d) d).
  { intros d0 x H. unfold dump in H. destruct e as [g0|]; [|destruct H]. destruct (c_eqs d0) eqn:E; [destruct H|]. destruct H as [<-|[<-|[]]]; repeat split; cbn; auto; congruence. }
  apply allk_app; [apply A|]. apply allk_app; [apply B|apply C].
Qed.
Lemma with_root_keeps : forall f root d, (forall d, allk (f d) d) -> allk (with_root f root d) d.
Proof. intros f root d H. unfold with_root. destruct root; [apply H|intros x []]. Qed.
Lemma init_keeps : forall m gen fargs eqs lim root d, allk (fst (system_init (T := T) ord m gen fargs eqs lim root d)) d.
Proof.
  intros. unfold system_init.
  destruct (match gen with Some g => Ok (g, fargs) | None => _ end) as [[g fl]|x]; [|apply with_root_keeps; apply save_keeps].
  destruct (match eqs with Some e => Ok e | None => _ end) as [e|x]; cbn [fst].
  - apply allk_app; [apply with_root_keeps; apply save_keeps|]. apply allk_app; apply with_root_keeps; apply checkpoint_keeps.
  - apply allk_app; [apply with_root_keeps; apply save_keeps|]. apply with_root_keeps; apply checkpoint_keeps.
Qed.
Lemma reload_keeps : forall d, allk (fst (from_checkpoint (T := T) ord d)) d.
Proof.
  intros d. unfold from_checkpoint. destruct (match c_model d with None => _ | Some _ => _ end) as [[[[m g] fl] e]|x]; [apply init_keeps|intros x0 []].
Qed.
Lemma crash_keeps : forall n ds d, allk ds d -> keeps d (crash n ds d).
Proof.
  intros n ds d H. unfold crash. apply allk_final. intros x X. apply H. revert X. clear. revert ds. induction n as [|n IH]; intros ds X; [destruct X|].
  destruct ds as [|y ds]; [destruct X|]. destruct X as [X|X]; [left; exact X|right; exact (IH ds X)].
Qed.
Lemma cstep_keeps : forall d e, keeps d (fst (cstep (T := T) ord d e)).
Proof.
  intros d [m lim| |m lim n|n]; cbn [cstep].
  - pose proof (allk_final _ d (init_keeps m None None None lim true d)) as H. unfold new_system. destruct (system_init ord m None None None lim true d) as [w r]. exact H.
  - pose proof (allk_final _ d (reload_keeps d)) as H. destruct (from_checkpoint ord d) as [w r]. exact H.
  - apply crash_keeps. apply init_keeps.
  - apply crash_keeps. apply reload_keeps.
Qed.
Lemma chistory_keeps : forall es d, keeps d (snd (chistory (T := T) ord d es)).
Proof.
  induction es as [|e es IH]; intros d; [apply keeps_refl|]. cbn [chistory]. pose proof (cstep_keeps d e) as H. destruct (cstep ord d e) as [d1 x]. cbn [fst] in H.
  pose proof (IH d1) as H1. destruct (chistory ord d1 es) as [xs d2]. cbn [snd] in *. exact (keeps_trans _ _ _ H H1).
Qed.

(** The parts of a successful construction. *)
Lemma prime_parts : forall (m : model T) s, prime_system ord m = Ok s -> exists sp, generate_space m = Ok sp /\ generalized ord m sp = Ok (s_gen s, s_fargs s) /\
  full_equations (s_fargs s) (s_gen s) = Ok (s_eqs s) /\ final_checks (s_eqs s) = Ok tt /\ s_model s = m.
Proof.
  intros m s E. unfold prime_system in E. destruct (generate_space m) as [sp|] eqn:E1; [|discriminate]. cbn [bind] in E.
  destruct (generalized ord m sp) as [[g fl]|] eqn:E2; [|discriminate]. cbn [bind] in E.
  destruct (full_equations fl g) as [e|] eqn:E3; [|discriminate]. cbn [bind] in E.
  destruct (final_checks e) as [[]|] eqn:E4; [|discriminate]. cbn [bind] in E. injection E as <-. cbn [s_gen s_fargs s_eqs s_model]. exists sp. auto.
Qed.

(** The states of a fresh directory. *)
Lemma new_trace : forall (m : model T) s lim, prime_system ord m = Ok s ->
  fst (new_system ord m lim true no_files) =
    let j := Some (Complete (json_of_model m)) in let g := Some (Complete (s_gen s)) in let f := Some (Complete (s_fargs s)) in
    [mkCdir (Some Torn) None None None; mkCdir j None None None; mkCdir j (Some Torn) None None; mkCdir j g None None;
     mkCdir j g (Some Torn) None; mkCdir j g f None] ++
    if lim <? n_equations (s_eqs s) then [] else [mkCdir j g f (Some Torn); mkCdir j g f (Some (Complete (s_eqs s)))].
Proof.
  intros m s lim E. destruct (prime_parts m s E) as [sp [E1 [E2 [E3 [E4 _]]]]]. unfold new_system, system_init. rewrite E1. cbn [bind]. rewrite generalized_none, E2. cbn [bind]. rewrite E3.
  cbn [fst with_root save_model final last]. unfold checkpoint at 1. cbn [too_many]. 
  cbn [put_model put_gen put_fargs no_files c_model c_gen c_fargs c_eqs dump final last app].
  unfold checkpoint. cbn [too_many]. destruct (lim <? n_equations (s_eqs s)); [reflexivity|].
  cbn [put_model put_gen put_fargs put_eqs no_files c_model c_gen c_fargs c_eqs dump final last app]. reflexivity.
Qed.

(** Reading a directory whose files are those of a system. *)
Definition holds {A} (f : option (content A)) (x : A) : Prop := f = None \/ f = Some (Complete x).
Lemma holds_load : forall A (f : option (content A)) x, holds f x -> load f = Ok None /\ f = None \/ load f = Ok (Some x) /\ f = Some (Complete x).
Proof. intros A f x [-> | ->]; [left|right]; auto. Qed.

Record files_of (s : system T) (d : cdir T) : Prop := {
  fo_model : exists m', c_model d = Some (Complete (json_of_model m')) /\ storable m' /\ same_attributes (s_model s) m';
  fo_gen : holds (c_gen d) (s_gen s);
  fo_fargs : holds (c_fargs d) (s_fargs s);
  fo_eqs : holds (c_eqs d) (s_eqs s);
  fo_both : c_gen d <> None -> c_fargs d <> None;
  fo_order : c_fargs d <> None -> c_gen d <> None }.

Lemma same_trans : forall a b c : model T, same_attributes a b -> same_attributes b c -> same_attributes a c.
Proof. intros a b c [] []. constructor; congruence. Qed.

Lemma checkpoint_files : forall s lim e d0, (e = None \/ e = Some (s_eqs s)) -> files_of s d0 -> files_of s (final (checkpoint lim (Some (s_gen s)) (Some (s_fargs s)) e d0) d0).
Proof.
  intros s lim e d0 HE [FM FG FF FE FB FC]. unfold checkpoint. destruct (too_many lim e); [constructor; assumption|].
  destruct d0 as [a b c f]. cbn [c_model c_gen c_fargs c_eqs] in *. unfold holds in *.
  destruct FG as [-> | ->]; destruct FF as [-> | ->]; try (exfalso; apply FB; [discriminate|reflexivity]); try (exfalso; apply FC; [discriminate|reflexivity]); destruct FE as [-> | ->]; destruct HE as [-> | ->];
    cbn [put_gen put_fargs put_eqs c_model c_gen c_fargs c_eqs dump final last app]; constructor; cbn [c_model c_gen c_fargs c_eqs]; unfold holds; auto; discriminate.
Qed.

Lemma init_again : forall (s : system T) d m' fl lim root eqs, prime_system ord (s_model s) = Ok s -> same_attributes (s_model s) m' ->
  (fl = None \/ fl = Some (s_fargs s) /\ settled ord) -> (eqs = None \/ eqs = Some (s_eqs s)) ->
  snd (system_init ord m' None fl eqs lim root d) = Ok (mkPy m' (s_gen s) (Some (s_fargs s)) (s_eqs s) lim).
Proof.
  intros s d m' fl lim root eqs E SA HF HE. destruct (prime_parts _ _ E) as [sp [E1 [E2 [E3 [E4 _]]]]].
  destruct (same_generalized (s_model s) m' ord SA) as [S1 S2]. unfold system_init. rewrite S1, E1. cbn [bind]. rewrite S2.
  replace (generalized_on fl ord (s_model s) sp) with (Ok (s_gen s, s_fargs s) : result (geqs T * sdict (list vec))).
  2:{ destruct HF as [->|[-> SE]]; symmetry; [exact E2|apply regenerated; assumption]. }
  cbn [bind]. replace (match eqs with Some e => Ok e | None => _ end) with (Ok (s_eqs s) : result (geqs T)).
  2:{ destruct HE as [-> | ->]; [|reflexivity]. rewrite E3. reflexivity. }
  cbn [snd]. rewrite E4. reflexivity.
Qed.

Lemma init_files : forall s d m' gen fargs eqs lim, prime_system ord (s_model s) = Ok s -> files_of s d -> storable m' -> same_attributes (s_model s) m' ->
  (gen = None /\ fargs = None \/ gen = Some (s_gen s) /\ fargs = Some (s_fargs s)) -> (eqs = None \/ eqs = Some (s_eqs s)) ->
  exists w, system_init ord m' gen fargs eqs lim true d = (w, Ok (mkPy m' (s_gen s) (Some (s_fargs s)) (s_eqs s) lim)) /\ files_of s (final w d).
Proof.
  intros s d m' gen fargs eqs lim E [FM FG FF FE FB FC] ST SA HG HE. destruct (prime_parts _ _ E) as [sp [E1 [E2 [E3 [E4 _]]]]].
  destruct (same_generalized (s_model s) m' ord SA) as [S1 S2]. unfold system_init.
  replace (match gen with Some g => Ok (g, fargs) | None => _ end) with (Ok (s_gen s, Some (s_fargs s)) : result (geqs T * option (sdict (list vec)))).
  2:{ destruct HG as [[-> ->]|[-> ->]]; [|reflexivity]. rewrite S1, E1. cbn [bind]. rewrite S2, generalized_none, E2. reflexivity. }
  replace (match eqs with Some e => Ok e | None => _ end) with (Ok (s_eqs s) : result (geqs T)).
  2:{ destruct HE as [-> | ->]; [|reflexivity]. rewrite E3. reflexivity. }
  rewrite E4. cbn [bind with_root]. eexists. split; [reflexivity|]. rewrite !final_app.
  assert (M : files_of s (final (save_model m' d) d)).
  { cbn [save_model final last]. constructor; cbn [put_model c_model c_gen c_fargs c_eqs]; auto. exists m'. auto. }
  apply checkpoint_files; [right; reflexivity|]. apply checkpoint_files; [exact HE|exact M].
Qed.

Lemma reload_files : forall s d, prime_system ord (s_model s) = Ok s -> files_of s d ->
  exists w m', from_checkpoint ord d = (w, Ok (mkPy m' (s_gen s) (Some (s_fargs s)) (s_eqs s) default_lim)) /\ same_attributes (s_model s) m' /\ files_of s (final w d).
Proof.
  intros s d E F. pose proof F as [[m0 [EM [ST SA]]] FG FF FE FB FC]. unfold from_checkpoint. rewrite EM, (model_roundtrip m0 ST). cbn [bind].
  assert (SP : same_attributes (s_model s) (pin m0)) by (eapply same_trans; [exact SA|apply pin_same]).
  destruct (holds_load _ _ _ FG) as [[-> HG]|[-> HG]]; cbn [bind];
    destruct (holds_load _ _ _ FF) as [[-> HF]|[-> HF]]; cbn [bind]; try (exfalso; apply FB; [rewrite HG; discriminate|exact HF]); try (exfalso; apply FC; [rewrite HF; discriminate|exact HG]);
    (destruct (holds_load _ _ _ FE) as [[-> HE]|[-> HE]]; cbn [bind]);
    match goal with |- exists w m', system_init ord _ ?g ?f ?e _ true _ = _ /\ _ =>
         destruct (init_files s d (pin m0) g f e default_lim E F (pin_storable _ ST) SP) as [w [EI FI]]; [auto|auto|]; exists w, (pin m0); auto end.
Qed.

Lemma construct_files : forall s d lim, prime_system ord (s_model s) = Ok s -> storable (s_model s) -> files_of s d \/ d = no_files ->
  exists w, new_system ord (s_model s) lim true d = (w, Ok (py_of lim s)) /\ files_of s (final w d).
Proof.
  intros s d lim E ST H. assert (SR : same_attributes (s_model s) (s_model s)) by (constructor; reflexivity). destruct H as [F | ->].
  - destruct (init_files s d (s_model s) None None None lim E F ST SR (or_introl (conj eq_refl eq_refl)) (or_introl eq_refl)) as [w [EI FI]]. exists w. split; [exact EI|exact FI].
  - pose proof (new_result (s_model s) lim true no_files) as NR. rewrite E in NR. cbn [bind] in NR.
    pose proof (new_trace (s_model s) s lim E) as NT. destruct (new_system ord (s_model s) lim true no_files) as [w r]. cbn [fst snd] in *. subst r w.
    eexists. split; [reflexivity|]. cbv zeta. rewrite final_app. cbn [final last].
    assert (M : exists m', Some (Complete (json_of_model (s_model s))) = Some (Complete (json_of_model m')) /\ storable m' /\ same_attributes (s_model s) m') by (exists (s_model s); auto).
    destruct (lim <? n_equations (s_eqs s)); cbn [last]; constructor; cbn [c_model c_gen c_fargs c_eqs]; unfold holds; auto; discriminate.
Qed.

(** Files are only added. *)
Definition same_model_event (m : model T) (e : cevent T) : Prop := e = Reload \/ exists lim, e = Construct m lim.
Lemma history_same : forall s es d, prime_system ord (s_model s) = Ok s -> storable (s_model s) -> files_of s d -> (forall e, In e es -> same_model_event (s_model s) e) ->
  exists ps d', chistory ord d es = (map Ok ps, d') /\ List.length ps = List.length es /\ (forall p, In p ps -> same_system s p) /\ files_of s d'.
Proof.
  intros s es. induction es as [|e es IH]; intros d E ST F H; [exists [], d; split; [reflexivity|]; split; [reflexivity|]; split; [intros p []|exact F]|].
  assert (X : exists d1 p, cstep ord d e = (d1, Some (Ok p)) /\ files_of s d1 /\ same_system s p).
  { destruct (H e (or_introl eq_refl)) as [->|[lim ->]].
    - destruct (reload_files s d E F) as [w [m' [ER [SA FW]]]]. exists (final w d). eexists. cbn [cstep]. rewrite ER. split; [reflexivity|]. split; [exact FW|].
      split; [exact SA|]. split; [reflexivity|]. split; reflexivity.
    - destruct (construct_files s d lim E ST (or_introl F)) as [w [EC FW]]. exists (final w d). eexists. cbn [cstep]. rewrite EC. split; [reflexivity|]. split; [exact FW|].
      split; [constructor; reflexivity|]. split; [reflexivity|]. split; reflexivity. }
  destruct X as [d1 [p [EX [F1 SP]]]]. destruct (IH d1 E ST F1 (fun e' I => H e' (or_intror I))) as [ps [d2 [E2 [L [A F2]]]]].
  exists (p :: ps), d2. cbn [chistory]. rewrite EX, E2. split; [reflexivity|]. split; [cbn; lia|]. split; [|exact F2]. intros q [<-|Q]; auto.
Qed.

(** After a failure. *)
Ltac walk := cbv beta iota zeta delta [fst with_root save_model checkpoint too_many put_model put_gen put_fargs put_eqs no_files c_model c_gen c_fargs c_eqs dump final last app from_checkpoint load unpickle bind].
Lemma failed_reload : forall (m : model T) lim x, storable m -> prime_system ord m = Err x ->
  snd (from_checkpoint ord (final (fst (new_system ord m lim true no_files)) no_files)) = Err x.
Proof.
  intros m lim x ST E. destruct (same_generalized m (pin m) ord (pin_same m)) as [S1 S2].
  unfold prime_system in E. unfold new_system at 1. unfold system_init. change (generalized_on None ord m) with (generalized ord m).
  destruct (generate_space m) as [sp|y] eqn:E1; cbn [bind] in E |- *.
  2:{ walk. rewrite (model_roundtrip m ST). unfold system_init. rewrite S1. cbn [bind snd]. congruence. }
  destruct (generalized ord m sp) as [[g fl]|y] eqn:E2; cbn [bind] in E |- *.
  2:{ walk. rewrite (model_roundtrip m ST). unfold system_init. rewrite S1. cbn [bind]. rewrite S2, generalized_none, E2. cbn [bind snd]. congruence. }
  destruct (full_equations fl g) as [e|y] eqn:E3; cbn [bind] in E |- *.
  2:{ walk. rewrite (model_roundtrip m ST). unfold system_init. rewrite E3. cbn [snd]. congruence. }
  destruct (final_checks e) as [[]|y] eqn:E4; cbn [bind] in E; [discriminate|].
  walk. destruct (lim <? n_equations e); rewrite (model_roundtrip m ST); unfold system_init; rewrite ?E3, E4; cbn [bind snd]; congruence.
Qed.
End Files.
