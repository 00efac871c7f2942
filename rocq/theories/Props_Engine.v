(** Property theorems C13-C15, C17-C21 (structure): equations and system. *)
From Coq Require Import String ZArith List Bool Lia Permutation.
From Verif Require Import Base NdArray NdArray_proofs Config Spec Model Space Spec_space Render Term Equation System Spec_engine.
From Verif Require Render_proofs Term_proofs Equation_proofs Engine_proofs Order_proofs.
Import ListNotations.
Open Scope list_scope.
Open Scope Z_scope.

(** A two-type model used as witness: Holstein (type 0) and Peierls (type 1);
    couplings 2 and 3, frequencies 5 and 7. *)
Definition iv (z : Z) : vec := ivec [z].
Definition ex_terms : list (hterm Z) :=
  [ mkHterm "Holstein" (iv 0) (iv 0) Plus (-2) 0 5; mkHterm "Holstein" (iv 0) (iv 0) Minus (-2) 0 5;
    mkHterm "Peierls" (iv 1) (iv 0) Plus 3 1 7; mkHterm "Peierls" (iv 1) (iv 0) Minus 3 1 7;
    mkHterm "Peierls" (iv 1) (iv 1) Plus (-3) 1 7; mkHterm "Peierls" (iv 1) (iv 1) Minus (-3) 1 7;
    mkHterm "Peierls" (iv (-1)) (iv (-1)) Plus 3 1 7; mkHterm "Peierls" (iv (-1)) (iv (-1)) Minus 3 1 7;
    mkHterm "Peierls" (iv (-1)) (iv 0) Plus (-3) 1 7; mkHterm "Peierls" (iv (-1)) (iv 0) Minus (-3) 1 7 ].
Definition ex_model : model Z :=
  mkModel 1 0 (mkHam ex_terms [5; 7] 1 1) None [2; 2] [2; 1] None 2.

Lemma ex_good : good_model ex_model 2.
Proof.
  constructor; try (simpl; lia).
  - repeat split; simpl; lia.
  - reflexivity.
  - discriminate.
  - intros [|[|t]] H; simpl in *; lia.
  - intros [|[|t]] H; simpl in *; lia.
  - intros h H. simpl in H. repeat (destruct H as [<-|H]; [simpl; lia|]). destruct H.
  - intros h H. simpl in H. repeat (destruct H as [<-|H]; [reflexivity|]). destruct H.
  - intros h H. simpl in H. repeat (destruct H as [<-|H]; [reflexivity|]). destruct H.
  - intros [|[|t]] H; [| |simpl in H; lia].
    + exists (mkHterm "Holstein" (iv 0) (iv 0) Plus (-2) 0%nat 5). simpl. auto.
    + exists (mkHterm "Peierls" (iv 1) (iv 0) Plus 3 1%nat 7). simpl. auto.
  - exists (mkHterm "Holstein" (iv 0) (iv 0) Minus (-2) 0%nat 5). simpl. auto.
  - intros h h' _ H. simpl in H. repeat (destruct H as [<-|H]; [discriminate|]). destruct H.
Qed.

Definition id_ord (k : string) (l : list vec) : list vec := l.
Definition rev_ord (k : string) (l : list vec) : list vec := rev l.
Lemma id_perm : forall k l, Permutation (id_ord k l) l. Proof. intros. apply Permutation_refl. Qed.
Lemma rev_perm : forall k l, Permutation (rev_ord k l) l. Proof. intros. apply Permutation_sym, Permutation_rev. Qed.

(** Facts about a computed system, by evaluation. *)
Lemma sys_ex : forall ord (m : model Z) f,
  match prime_system ord m with Ok s => f s | Err _ => false end = true ->
  exists s, prime_system ord m = Ok s /\ f s = true.
Proof. intros ord m f H. destruct (prime_system ord m) as [s|]; [exists s; auto|discriminate]. Qed.

(** C13.  Clouds of every rank; [annih_at] is the body of the loop in
    [Equation._initialize_terms].  [term_for] (Spec_engine.v) says which
    function the stored cloud, argument and phase stand for.  The term is kept
    exactly when the new cloud is legal. *)
Theorem C13_annihilation_term : forall T (m : model T) a h i, valid_cloud a ->
  List.length (v2 (ht_phi h)) = ndim a -> List.length (v2 (ht_psi h)) = ndim a ->
  (ntypes a <= List.length (h_freqs (m_ham m)))%nat -> (ntypes a <= List.length (m_pe m))%nat ->
  (ht_index h < ntypes a)%nat -> Forall2 (fun d x => (x < d)%nat) (tl (shp a)) i ->
  let n := occ a (ht_index h) (map Z.of_nat i) in
  (n = 0 /\ annih_at m a h i = Ok []) \/
  (0 < n /\ exists t ok, annih_at m a h i = Ok (if ok : bool then [t] else []) /\
     term_for m a h (map Z.of_nat i) (-1) n t /\
     (t_kind t = KAnnih /\ t_h t = Some h) /\
     total (cfg (t_cfg t)) = total a - 1 /\
     (ok = true <-> legal_spec (cfg (t_cfg t)) (m_mps m) (Some (m_pe m)) None true)).
Proof.
  intros T m a h i V H1 H2 H3 H4 H5 H6 n.
  destruct (Term_proofs.annih_at_spec m a h i V H1 H2 H3 H4 H5 H6) as [H|[H [t [ok [A [B [[C1 [C2 _]] [D E]]]]]]]];
    [left; exact H|right; split; [exact H|exists t, ok; auto]].
Qed.
Print Assumptions C13_annihilation_term.

(** A two-dimensional cloud whose corner phonon is removed: the box shrinks. *)
Definition ex2d : nd := mkNd [1; 2; 2]%nat [1; 0; 0; 2].
Definition ex2d_model : model Z :=
  mkModel 1 0 (mkHam [] [5] 2 1) None [3] [4] None 1.
Definition ex2d_h : hterm Z := mkHterm "Holstein" (ivec [0; 0]) (ivec [0; 0]) Minus (-2) 0 5.
Example C13_nonvacuous : exists t, annih_at ex2d_model ex2d ex2d_h [0; 0]%nat = Ok [t] /\
  cfg (t_cfg t) = mkNd [1; 1; 1]%nat [2] /\ v2 (t_exp t) = [-2; -2] /\
  option_map v2 (t_f t) = Some [2; 2] /\ t_const t = Some (-2, 1) /\ t_fshift t = [(5, 3)].
Proof. eexists. split; [vm_compute; reflexivity|]. repeat split. Qed.

(** C14.  [x] is any vector of Z^d; the cloud must not be phonon-free (the code
    never calls this on the vacuum). *)
Theorem C14_creation_term : forall T (m : model T) a h x, valid_cloud a -> ~ phonon_free a ->
  List.length (v2 (ht_phi h)) = ndim a -> List.length (v2 (ht_psi h)) = ndim a ->
  (ntypes a <= List.length (h_freqs (m_ham m)))%nat -> (ntypes a <= List.length (m_pe m))%nat ->
  (ht_index h < ntypes a)%nat -> List.length x = ndim a ->
  exists t ok, creat_at m a h x = Ok (if ok : bool then [t] else []) /\
     term_for m a h x 1 1 t /\ (t_kind t = KCreat /\ t_h t = Some h) /\
     total (cfg (t_cfg t)) = total a + 1 /\
     (ok = true <-> legal_spec (cfg (t_cfg t)) (m_mps m) (Some (m_pe m)) None true).
Proof.
  intros T m a h x V NF H1 H2 H3 H4 H5 H6.
  destruct (Term_proofs.creat_at_spec m a h x V NF H1 H2 H3 H4 H5 H6) as [t [ok [A [B [[C1 [C2 _]] [D [_ E]]]]]]].
  exists t, ok. auto.
Qed.
Print Assumptions C14_creation_term.

Example C14_nonvacuous : exists t,
  creat_at ex2d_model ex2d (mkHterm "Holstein" (ivec [0; 0]) (ivec [0; 0]) Plus (-2) 0%nat 5) [-1; 0] = Ok [t] /\
  cfg (t_cfg t) = mkNd [1; 3; 2]%nat [1; 0; 1; 0; 0; 2] /\ v2 (t_exp t) = [2; 0] /\
  option_map v2 (t_f t) = Some [0; 0].
Proof. eexists. split; [vm_compute; reflexivity|]. repeat split. Qed.

(** C13/C14 for whole equations: the right-hand side consists of exactly one
    term per operator and per site at which it acts inside the space. *)
Theorem C14_terms_exact : forall T (m : model T) ae a, good_model m ae -> space m ae a ->
  exists ts st, initialize_terms m a = Ok ts /\
    (forall h, In h (h_terms (m_ham m)) -> NoDup (st h) /\ forall x, In x (st h) <-> acts_at m ae a h x) /\
    Forall2 (fun p t => rhs_term m ae a (fst p) (snd p) t)
            (flat_map (fun h => map (pair h) (st h)) (h_terms (m_ham m))) ts.
Proof. intros T m ae a G Sa. exact (Engine_proofs.terms_exact m ae G a Sa). Qed.
Print Assumptions C14_terms_exact.

Definition ex_cloud : nd := mkNd [2; 2]%nat [1; 0; 0; 1].
Lemma ex_cloud_space : space ex_model 2 ex_cloud.
Proof.
  unfold space. destruct (generate_space ex_model) as [d|e] eqn:E; [|vm_compute in E; discriminate].
  destruct (Space_proofs.space_complete ex_model 2 (gm_wf _ _ ex_good) eq_refl) as [d' [E' [_ H]]].
  rewrite E in E'. injection E' as <-. apply (H (total ex_cloud)).
  vm_compute in E. injection E as <-. vm_compute. tauto.
Qed.

Example C14_exact_nonvacuous : good_model ex_model 2 /\ space ex_model 2 ex_cloud /\
  exists ts, initialize_terms ex_model ex_cloud = Ok ts /\ List.length ts = 7%nat.
Proof.
  split; [exact ex_good|]. split; [exact ex_cloud_space|].
  destruct (initialize_terms ex_model ex_cloud) as [ts|] eqn:E; [|vm_compute in E; discriminate].
  exists ts. split; [reflexivity|]. vm_compute in E. injection E as <-. reflexivity.
Qed.

(** C18: construction succeeds for every good model and every set iteration
    order; left- and right-hand unknowns coincide, as identifiers and as
    (cloud, argument) pairs. *)
Theorem C18_closure : forall T (m : model T) ae ord, good_model m ae ->
  (forall k l, Permutation (ord k l) l) ->
  exists s, prime_system ord m = Ok s /\
    (forall x, In x (index_ids (flat_map snd (s_eqs s))) <-> In x (rhs_ids (flat_map snd (s_eqs s)))) /\
    (forall q t, In q (flat_map snd (s_eqs s)) -> In t (e_terms q) ->
       exists q', In q' (flat_map snd (s_eqs s)) /\ same_unknown t (e_index q')) /\
    (forall q, In q (flat_map snd (s_eqs s)) ->
       exists q' t, In q' (flat_map snd (s_eqs s)) /\ In t (e_terms q') /\ same_unknown t (e_index q)).
Proof.
  intros T m ae ord G P. destruct (Engine_proofs.system_closes m ae G ord P) as [s [E [_ C]]].
  exists s. split; [exact E|]. split; [exact C|]. exact (Engine_proofs.closes m ae G ord P s E).
Qed.
Print Assumptions C18_closure.

Example C18_nonvacuous : good_model ex_model 2 /\ exists s, prime_system rev_ord ex_model = Ok s /\
  eqlZ (flat_map (fun kv => [fst kv; Z.of_nat (List.length (snd kv))]) (s_eqs s)) [1; 8; 2; 18; 3; 15; 0; 1] = true.
Proof. split; [exact ex_good|]. apply (sys_ex rev_ord ex_model). vm_compute. reflexivity. Qed.

(** C15 *)
Theorem C15_hierarchy : forall T (m : model T) ae ord s, good_model m ae ->
  (forall k l, Permutation (ord k l) l) -> prime_system ord m = Ok s ->
  forall k es q, In (k, es) (s_eqs s) -> In q es ->
  total (cfg (t_cfg (e_index q))) = k /\
  ((0 < k /\ forall t, In t (e_terms q) -> total (cfg (t_cfg t)) = k - 1 \/ total (cfg (t_cfg t)) = k + 1) \/
   (k = 0 /\ forall t, In t (e_terms q) -> total (cfg (t_cfg t)) = 1)).
Proof. intros T m ae ord s G P E. exact (Engine_proofs.hierarchy m ae G ord P s E). Qed.
Print Assumptions C15_hierarchy.

Example C15_nonvacuous : exists s, prime_system id_ord ex_model = Ok s /\
  existsb (fun kv => (fst kv =? 2) && existsb (fun q =>
    existsb (fun t => total (cfg (t_cfg t)) =? 1) (e_terms q) &&
    existsb (fun t => total (cfg (t_cfg t)) =? 3) (e_terms q)) (snd kv)) (s_eqs s) = true.
Proof. apply (sys_ex id_ord ex_model). vm_compute. reflexivity. Qed.

(** C17 *)
Theorem C17_single_green : forall T (m : model T) ae ord s, good_model m ae ->
  (forall k l, Permutation (ord k l) l) -> prime_system ord m = Ok s ->
  (forall q t, In q (flat_map snd (s_eqs s)) -> In t (e_terms q) -> phonon_free (cfg (t_cfg t)) ->
     exists f, t_f t = Some f /\ v2 f = [0]) /\
  exists q l, s_eqs s = l ++ [(0, [q])] /\ Forall (fun kv => 0 < fst kv) l /\
    e_green q = true /\ phonon_free (cfg (t_cfg (e_index q))) /\
    (exists f, t_f (e_index q) = Some f /\ v2 f = [0]) /\
    (forall q', In q' (flat_map snd (s_eqs s)) -> phonon_free (cfg (t_cfg (e_index q'))) -> q' = q).
Proof.
  intros T m ae ord s G P E. split.
  - intros q t Hq Ht F. apply (Engine_proofs.In_blocks s) in Hq. destruct Hq as [k [es [H1 H2]]].
    exact (Engine_proofs.vacuum_terms m ae G ord P s E k es q t H1 H2 Ht F).
  - destruct (Engine_proofs.green_block m ae G ord P s E) as [q [_ [Gq [F [A [l [El [B N]]]]]]]].
    exists q, l. split; [exact El|]. split; [exact B|]. split; [exact Gq|]. split; [exact F|]. split; [exact A|].
    intros q' Hq' F'. apply (Engine_proofs.In_blocks s) in Hq'. destruct Hq' as [k [es [H1 H2]]].
    destruct (Engine_proofs.hierarchy m ae G ord P s E k es q' H1 H2) as [TK _].
    destruct (Engine_proofs.q_valid m ae G ord P s E k es q' H1 H2) as [V _].
    apply (Render_proofs.valid_total_free _ V) in F'. rewrite El in H1. apply in_app_iff in H1. destruct H1 as [H1|[H1|[]]].
    + rewrite Forall_forall in B. apply B in H1. simpl in H1. lia.
    + injection H1 as <- <-. destruct H2 as [<-|[]]. reflexivity.
Qed.
Print Assumptions C17_single_green.

Example C17_nonvacuous : exists s, prime_system id_ord ex_model = Ok s /\
  existsb (fun q => existsb (fun t => total (cfg (t_cfg t)) =? 0) (e_terms q)) (flat_map snd (s_eqs s)) = true.
Proof. apply (sys_ex id_ord ex_model). vm_compute. reflexivity. Qed.

(** C19 *)
Theorem C19_one_equation_per_unknown : forall T (m : model T) ae ord s, good_model m ae ->
  (forall k l, Permutation (ord k l) l) -> prime_system ord m = Ok s ->
  NoDup (index_ids (flat_map snd (s_eqs s))) /\
  (forall i j q q', nth_error (flat_map snd (s_eqs s)) i = Some q -> nth_error (flat_map snd (s_eqs s)) j = Some q' ->
     same_unknown (e_index q) (e_index q') -> i = j) /\
  total_terms s = Z.of_nat (List.length (flat_map snd (s_eqs s))).
Proof.
  intros T m ae ord s G P E. pose proof (proj1 (Engine_proofs.s_ids m ae G ord P s E)) as ND. split; [exact ND|]. split.
  - intros i j q q' Hi Hj SU.
    assert (V : forall q0, In q0 (flat_map snd (s_eqs s)) -> valid_cloud (cfg (t_cfg (e_index q0)))).
    { intros q0 H. apply (Engine_proofs.In_blocks s) in H. destruct H as [k [es [H1 H2]]].
      exact (proj1 (Engine_proofs.q_valid m ae G ord P s E k es q0 H1 H2)). }
    pose proof (map_nth_error (fun e => tid (e_index e)) _ _ Hi) as Ni.
    pose proof (map_nth_error (fun e => tid (e_index e)) _ _ Hj) as Nj.
    apply (proj1 (NoDup_nth_error _) ND).
    + apply nth_error_Some. unfold index_ids. rewrite Ni. discriminate.
    + unfold index_ids. rewrite Ni, Nj. f_equal. apply nth_error_In in Hi, Hj.
      apply (Engine_proofs.same_unknown_id); auto.
  - rewrite (Engine_proofs.count_ok m ae G ord P s E). apply Engine_proofs.sum_blocks.
Qed.
Print Assumptions C19_one_equation_per_unknown.

Example C19_nonvacuous : exists s, prime_system id_ord ex_model = Ok s /\ (total_terms s =? 42) = true.
Proof. apply (sys_ex id_ord ex_model). vm_compute. reflexivity. Qed.

(** C20.  The identifier of the Green's function is "{G}[0.0]". *)
Theorem C20_full_basis : forall T (m : model T) ae ord s, good_model m ae ->
  (forall k l, Permutation (ord k l) l) -> prime_system ord m = Ok s ->
  let eqs := flat_map snd (s_eqs s) in
  (forall x i, sget x (full_basis s) = Some i <-> exists q, nth_error eqs i = Some q /\ tid (e_index q) = x) /\
  (forall x y i, sget x (full_basis s) = Some i -> sget y (full_basis s) = Some i -> x = y) /\
  sget "{G}[0.0]"%string (full_basis s) = Some (List.length eqs - 1)%nat /\
  (exists q, nth_error eqs (List.length eqs - 1) = Some q /\ phonon_free (cfg (t_cfg (e_index q)))).
Proof.
  intros T m ae ord s G P E eqs. pose proof (Engine_proofs.full_basis_spec m ae G ord P s E) as B.
  cbv zeta in B. fold eqs in B. split; [|split; [|split]].
  - intros x i. rewrite B. unfold index_ids. rewrite nth_error_map. destruct (nth_error eqs i) as [q|]; simpl.
    + split; [intros H; injection H as <-; exists q; auto|]. intros [q' [H <-]]. injection H as <-. reflexivity.
    + split; [discriminate|]. intros [q' [H _]]. discriminate.
  - intros x y i Hx Hy. apply B in Hx, Hy. congruence.
  - apply (Engine_proofs.green_last m ae G ord P s E).
  - destruct (Engine_proofs.green_block m ae G ord P s E) as [q [_ [_ [F [_ [l [El _]]]]]]]. exists q. split; [|exact F].
    unfold eqs. rewrite El. rewrite flat_map_app. cbn [flat_map snd app]. rewrite app_length. cbn [List.length].
    rewrite nth_error_app2 by lia. replace (_ + 1 - 1 - _)%nat with 0%nat by lia. reflexivity.
Qed.
Print Assumptions C20_full_basis.

Theorem C20_local_basis : forall T (m : model T) ae ord s, good_model m ae ->
  (forall k l, Permutation (ord k l) l) -> prime_system ord m = Ok s ->
  forall k es, In (k, es) (s_eqs s) -> exists b, assocZ k (local_basis s) = Some b /\
  (forall x i, sget x b = Some i <-> exists q, nth_error es i = Some q /\ tid (e_index q) = x) /\
  (forall x y i, sget x b = Some i -> sget y b = Some i -> x = y).
Proof.
  intros T m ae ord s G P E k es H.
  destruct (Engine_proofs.local_spec m ae G ord P s E k es H) as [A [ND B]].
  eexists. split; [exact A|]. split.
  - intros x i. rewrite B. unfold index_ids. rewrite nth_error_map. destruct (nth_error es i) as [q|]; simpl.
    + split; [intros H'; injection H' as <-; exists q; auto|]. intros [q' [H' <-]]. injection H' as <-. reflexivity.
    + split; [discriminate|]. intros [q' [H' _]]. discriminate.
  - intros x y i Hx Hy. apply B in Hx, Hy. congruence.
Qed.
Print Assumptions C20_local_basis.

Example C20_nonvacuous : exists s, prime_system rev_ord ex_model = Ok s /\
  match sget "{G}[0.0]"%string (full_basis s), sget "{[0, 1](2, 1)}[-1.0]"%string (full_basis s) with
  | Some i, Some j => Nat.eqb i 41 && Nat.ltb j 8
  | _, _ => false
  end = true.
Proof. apply (sys_ex rev_ord ex_model). vm_compute. reflexivity. Qed.

(** C21 (structure): for every model, two iteration orders of the sets give
    systems with the same equations, permuted within each phonon number. *)
Theorem C21_order_permutes : forall T (m : model T) ord ord' s,
  (forall k l, Permutation (ord k l) l) -> (forall k l, Permutation (ord' k l) l) ->
  prime_system ord m = Ok s ->
  exists s', prime_system ord' m = Ok s' /\ s_model s' = s_model s /\ s_gen s' = s_gen s /\
    Forall2 (fun b b' => fst b = fst b' /\ Permutation (snd b) (snd b')) (s_eqs s) (s_eqs s').
Proof. intros T m ord ord' s P P' E. exact (Order_proofs.order_irrelevant ord ord' P P' m s E). Qed.
Print Assumptions C21_order_permutes.

Example C21_nonvacuous : exists s, prime_system id_ord ex_model = Ok s /\
  match prime_system rev_ord ex_model with
  | Ok s' => negb (forallb (fun p => String.eqb (fst p) (snd p))
               (combine (index_ids (flat_map snd (s_eqs s))) (index_ids (flat_map snd (s_eqs s')))))
  | Err _ => false
  end = true.
Proof.
  apply (sys_ex id_ord ex_model (fun s => match prime_system rev_ord ex_model with
  | Ok s' => negb (forallb (fun p => String.eqb (fst p) (snd p))
               (combine (index_ids (flat_map snd (s_eqs s))) (index_ids (flat_map snd (s_eqs s')))))
  | Err _ => false
  end)). vm_compute. reflexivity.
Qed.
