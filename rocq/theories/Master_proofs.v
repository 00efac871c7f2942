(** The dictionary of f-arguments of a System on the heap, and the equations
    built beside it. *)
From Coq Require Import String ZArith List Arith Bool Lia.
From Verif Require Import Base NdArray Config Model Space Render Term Equation System NdArray_proofs Heap Heap_proofs Objects_proofs Build_proofs Separate_proofs.
Import ListNotations.
Open Scope list_scope.
Open Scope nat_scope.

Section Master.
Context {T : Type}.
Implicit Types (h : heap T).

(** * Equations lie in blocks of their own *)
Definition spot := (loc * (nat * nat))%type.
Fixpoint chain (lo : nat) (bs : list spot) (hi : nat) : Prop :=
  match bs with
  | [] => lo <= hi
  | (e, (a, b)) :: r => lo <= a /\ a <= e < b /\ chain b r hi
  end.
Definition inblk (bs : list spot) (y : loc) : Prop := exists s, In s bs /\ fst (snd s) <= y < snd (snd s).

Lemma chain_le : forall bs lo hi, chain lo bs hi -> lo <= hi.
Proof. induction bs as [|[e [a b]] bs IH]; cbn; intros lo hi H; [exact H|]. destruct H as (A & B & C). apply IH in C. lia. Qed.
Lemma chain_up : forall bs lo hi hi', chain lo bs hi -> hi <= hi' -> chain lo bs hi'.
Proof. induction bs as [|[e [a b]] bs IH]; cbn; intros lo hi hi' H L; [lia|]. destruct H as (A & B & C). eauto. Qed.
Lemma chain_snoc : forall bs lo hi e a b, chain lo bs hi -> hi <= a -> a <= e < b -> chain lo (bs ++ [(e, (a, b))]) b.
Proof. induction bs as [|[e' [a' b']] bs IH]; cbn; intros lo hi e a b H L E; [lia|]. destruct H as (A & B & C). split; [exact A|]. split; [exact B|]. eapply IH; eassumption. Qed.
Lemma chain_in : forall bs lo hi s, chain lo bs hi -> In s bs -> lo <= fst (snd s) /\ snd (snd s) <= hi /\ fst (snd s) <= fst s < snd (snd s).
Proof.
  induction bs as [|[e [a b]] bs IH]; cbn; intros lo hi s H I; [destruct I|]. destruct H as (A & B & C). destruct I as [<-|I]; cbn.
  - apply chain_le in C. lia.
  - destruct (IH _ _ _ C I) as (X & Y & Z). lia.
Qed.
Lemma inblk_bounds : forall bs lo hi y, chain lo bs hi -> inblk bs y -> lo <= y < hi.
Proof. intros bs lo hi y C (s & I & L). destruct (chain_in _ _ _ _ C I) as (X & Y & _). lia. Qed.

Definition placed (mo : model T) h (bs : list spot) (vs : list (equation T)) : Prop :=
  Forall2 (fun s v => block (fst (snd s)) (snd (snd s)) h /\ fst (snd s) <= fst s < snd (snd s) /\ a_eq h (fst s) = Some v /\ sep mo h (fst s)) bs vs.

Lemma placed_agree : forall mo h h' bs vs, (forall y c, inblk bs y -> cell_at h y = Some c -> cell_at h' y = Some c) -> placed mo h bs vs -> placed mo h' bs vs.
Proof.
  intros mo h h' bs vs A P. assert (Q : forall s, In s bs -> forall y c, fst (snd s) <= y < snd (snd s) -> cell_at h y = Some c -> cell_at h' y = Some c).
  { intros s I y c L. apply A. exists s. auto. } clear A. induction P as [|s v bs vs (B & L & E & S) P IH]; constructor.
  - assert (I : iso (fun x => fst (snd s) <= x < snd (snd s)) (fun x => x) h h').
    { apply iso_block; [exact B|]. intros y Y. destruct (B y Y) as [c [C _]]. rewrite C. apply (Q s (or_introl eq_refl) y c Y C). }
    split; [|split; [exact L|split]].
    + eapply block_agree; [exact B|]. intros y Y. destruct (B y Y) as [c [C _]]. rewrite C. apply (Q s (or_introl eq_refl) y c Y C).
    + rewrite <- E. apply (iso_eq _ _ _ _ I). exact L.
    + apply (iso_sep _ _ _ _ _ _ I); auto.
  - apply IH. intros s' I. apply Q. right. exact I.
Qed.

(** * The master dictionary *)
Definition entry h (kl : string * loc) (kv : string * list vec) : Prop :=
  fst kl = fst kv /\ exists xs, cell_at h (snd kl) = Some (CList xs) /\ Forall2 (fun x v => a_vec h x = Some v) xs (snd kv).
Definition master (n : nat) (bs : list spot) h (d : loc) (V : sdict (list vec)) : Prop :=
  exists D, cell_at h d = Some (CDict D) /\ NoDup (map snd D) /\ Forall2 (entry h) D V /\
    (forall y, y = d \/ In y (map snd D) -> n <= y /\ ~ inblk bs y).

(** What appending leaves alone. *)
Definition fr (n : nat) (bs : list spot) h h' : Prop := List.length h <= List.length h' /\
  forall y c, cell_at h y = Some c -> (y < n \/ inblk bs y \/ exists u, c = CVec u) -> cell_at h' y = Some c.

Lemma fr_refl : forall n bs h, fr n bs h h.
Proof. intros. split; auto. Qed.
Lemma fr_trans : forall n bs h h1 h2, fr n bs h h1 -> fr n bs h1 h2 -> fr n bs h h2.
Proof. intros n bs h h1 h2 [A B] [C D]. split; [lia|]. intros y c E H. apply D; auto. Qed.
Lemma fr_keeps : forall n bs h h', fr n bs h h' -> keeps n h h'.
Proof. intros n bs h h' [A B]. split; [exact A|]. intros l L M. destruct (at_ex h l M) as [c E]. rewrite E. apply B; auto. Qed.
Lemma fr_vec : forall n bs h h' x v, fr n bs h h' -> a_vec h x = Some v -> a_vec h' x = Some v.
Proof.
  intros n bs h h' x v [_ B] E. unfold a_vec in *. destruct (cell_at h x) as [c|] eqn:C; [|discriminate]. destruct c; try discriminate. rewrite (B x _ C) by eauto. exact E.
Qed.
Lemma vecs_fr : forall n bs h h' xs vs, fr n bs h h' -> Forall2 (fun x v => a_vec h x = Some v) xs vs -> Forall2 (fun x v => a_vec h' x = Some v) xs vs.
Proof. intros n bs h h' xs vs F R. induction R; constructor; auto. eapply fr_vec; eassumption. Qed.

Lemma entries_dict : forall h d D V, cell_at h d = Some (CDict D) -> Forall2 (entry h) D V -> a_dict h d = Some V.
Proof.
  intros h d D V E R. unfold a_dict. rewrite E. apply opt_map_some. clear E. induction R as [|kl kv D V [A (xs & B & C)] R IH]; constructor; [|exact IH].
  unfold a_list. rewrite B, (proj2 (opt_map_some _ _ _ _ _) C). cbn. rewrite A. destruct kv; reflexivity.
Qed.

Lemma dict_entries : forall h d V, a_dict h d = Some V -> exists D, cell_at h d = Some (CDict D) /\ Forall2 (entry h) D V.
Proof.
  intros h d V E. unfold a_dict in E. destruct (cell_at h d) as [[]|] eqn:C; try discriminate. exists d0. split; [reflexivity|]. apply opt_map_some in E.
  clear C. induction E as [|kl kv D V X R IH]; constructor; [|exact IH]. destruct (a_list (a_vec h) h (snd kl)) as [vs|] eqn:L; [|discriminate]. cbn in X. injection X as <-.
  split; [reflexivity|]. unfold a_list in L. destruct (cell_at h (snd kl)) as [[]|]; try discriminate. exists l. split; [reflexivity|]. apply opt_map_some, L.
Qed.

Lemma sget_none : forall k x (v : vec) h D V, Forall2 (entry h) D V -> sget k D = None -> sappend k v V = V ++ [(k, [v])] /\ @sget loc k (D ++ [(k, x)]) = Some x.
Proof.
  intros k x v h D V R. induction R as [|[k1 l] [k2 vs] D V [A _] R IH]; cbn in *; [rewrite String.eqb_refl; auto|]. subst k2.
  destruct (String.eqb k1 k); [discriminate|]. intros N. destruct (IH N) as [X Y]. rewrite X. auto.
Qed.

Lemma list_vec : forall h l c x v, (forall u, cell_at h l <> Some (CVec u)) -> a_vec h x = Some v -> a_vec (setn h l c) x = Some v.
Proof.
  intros h l c x v NV X. unfold a_vec in *. rewrite at_other; [exact X|]. intros ->. destruct (cell_at h l) as [[]|] eqn:Z; try discriminate. eapply NV. reflexivity.
Qed.

Lemma entry_other : forall h l c (kl : string * loc) kv, snd kl <> l -> (forall u, cell_at h l <> Some (CVec u)) -> entry h kl kv -> entry (setn h l c) kl kv.
Proof.
  intros h l c kl kv N NV [A (xs & B & C)]. split; [exact A|]. exists xs. rewrite at_other by exact N. split; [exact B|].
  clear - C NV. induction C as [|x v xs vs X C IH]; constructor; [|exact IH]. apply list_vec; assumption.
Qed.

Lemma sget_some : forall k x v h D V l, Forall2 (entry h) D V -> NoDup (map snd D) -> a_vec h x = Some v -> sget k D = Some l ->
  exists xs, cell_at h l = Some (CList xs) /\ In l (map snd D) /\ Forall2 (entry (setn h l (CList (xs ++ [x])))) D (sappend k v V).
Proof.
  intros k x v h D V l R. induction R as [|[k1 l1] [k2 vs] D V E R IH]; cbn; intros ND X G; [discriminate|]. inversion ND as [|? ? N1 N2]; subst.
  pose proof E as [A (xs & B & C)]. cbn [fst snd] in A, B, C. subst k2. destruct (String.eqb k1 k).
  - injection G as ->. exists xs. split; [exact B|]. split; [auto|]. assert (NV : forall u, cell_at h l <> Some (CVec u)) by (intros u; congruence). constructor.
    + split; [reflexivity|]. cbn. exists (xs ++ [x]). split; [apply at_set; eapply at_lt, B|]. 
      apply Forall2_app.
      * clear - C NV. assert (Y : forall ys, Forall2 (fun x v => a_vec (setn h l (CList ys)) x = Some v) xs vs); [|apply Y]. intros ys.
        induction C as [|y w xs vs Z C IH]; constructor; auto. eapply list_vec; eassumption.
      * constructor; [|constructor]. eapply list_vec; eassumption.
    + clear - R N1 NV. revert N1. induction R as [|kl kv D V E R IH]; intros N1; constructor; [apply entry_other; auto; intros Z; apply N1; left; exact Z|].
      apply IH. intros Z. apply N1. right. exact Z.
  - destruct (IH N2 X G) as (ys & P & Q & S). exists ys. split; [exact P|]. split; [auto|]. constructor; [|exact S].
    apply entry_other; [cbn; intros ->; contradiction|intros u; congruence|exact E].
Qed.
Lemma run_bind : forall A B (p : prog T A) (k : A -> prog T B) h h1 a, p h = (h1, Ok a) -> pbind p k h = k a h1.
Proof. intros A B p k h h1 a E. unfold pbind. rewrite E. reflexivity. Qed.
Lemma run_load : forall A (f : heap T -> loc -> option A) l h a, f h l = Some a -> load f l h = (h, Ok a).
Proof. intros A f l h a E. unfold load. rewrite E. reflexivity. Qed.

Lemma sealed0_set : forall h l c, sealed 0 h -> (forall y, In y (refs c) -> y < List.length h) -> sealed 0 (setn h l c).
Proof. intros h l c S H. apply sealed_set; [exact S|]. intros _ y Y. specialize (H y Y). lia. Qed.
Lemma sealed0_alloc : forall h c, sealed 0 h -> (forall y, In y (refs c) -> y < List.length h) -> sealed 0 (h ++ [c]).
Proof. intros h c S H. apply sealed_alloc; [exact S|]. intros _ y Y. specialize (H y Y). lia. Qed.
Lemma sealed0_refs : forall h l c y, sealed 0 h -> cell_at h l = Some c -> In y (refs c) -> y < List.length h.
Proof. intros h l c y S E Y. apply (S l c (Nat.le_0_l _) E y Y). Qed.
Lemma vec_lt : forall h x v, a_vec h x = Some v -> x < List.length h.
Proof. intros h x v E. unfold a_vec in E. destruct (cell_at h x) eqn:C; [|discriminate]. eapply at_lt, C. Qed.

Lemma fr_set : forall n bs h l c0 c, n <= l -> ~ inblk bs l -> cell_at h l = Some c0 -> (forall u, c0 <> CVec u) -> fr n bs h (setn h l c).
Proof.
  intros n bs h l c0 c L N E NV. split; [rewrite len_set; lia|]. intros y c' Y H. rewrite at_other; [exact Y|]. intros ->.
  destruct H as [H|[H|[u ->]]]; [lia|contradiction|]. rewrite E in Y. injection Y as ->. eapply NV. reflexivity.
Qed.
Lemma fr_app : forall n bs h x, fr n bs h (h ++ x).
Proof. intros. split; [rewrite app_length; lia|]. intros y c E _. rewrite at_old by (eapply at_lt, E). exact E. Qed.

Lemma entry_app : forall h xs kl kv, entry h kl kv -> entry (h ++ xs) kl kv.
Proof.
  intros h xs kl kv [A (ys & B & C)]. split; [exact A|]. exists ys. rewrite at_old by (eapply at_lt, B). split; [exact B|]. eapply (vecs_fr 0 []); [apply fr_app|exact C].
Qed.

(** system.py:150-155 *)
Lemma append_one : forall n bs h d V k x v, sealed 0 h -> n <= List.length h -> chain n bs (List.length h) -> master n bs h d V -> a_vec h x = Some v ->
  exists h', o_append_one d (k, x) h = (h', Ok tt) /\ master n bs h' d (sappend k v V) /\ fr n bs h h' /\ sealed 0 h'.
Proof.
  intros n bs h d V k x v S L CH (D & E & ND & R & O) X. unfold o_append_one, pbind, load. unfold as_ at 1. rewrite E. cbn [opt_bind is_dict fst snd].
  pose proof (vec_lt _ _ _ X) as Lx. destruct (sget k D) as [l|] eqn:G.
  - destruct (sget_some k x v h D V l R ND X G) as (xs & C & I & R'). unfold as_. rewrite C. cbn [opt_bind is_list]. unfold store. eexists. split; [reflexivity|].
    assert (Nd : d <> l) by (intros ->; congruence). destruct (O l (or_intror I)) as [O1 O2]. split; [|split].
    + exists D. rewrite at_other by exact Nd. auto.
    + apply (fr_set n bs h l (CList xs)); auto. discriminate.
    + apply sealed0_set; [exact S|]. cbn. intros y Y. apply in_app_or in Y as [Y|[<-|[]]]; [|exact Lx]. eapply sealed0_refs; [exact S|exact C|exact Y].
  - unfold alloc, store. eexists. split; [reflexivity|]. set (l := List.length h). set (h1 := h ++ [CList [x]]).
    destruct (sget_none k l v h D V R G) as [SA _]. destruct (O d (or_introl eq_refl)) as [O1 O2]. pose proof (at_lt _ _ _ E) as Ld.
    assert (E1 : cell_at h1 d = Some (CDict D)) by (unfold h1; rewrite at_old by exact Ld; exact E).
    assert (El : cell_at h1 l = Some (CList [x])) by apply at_new.
    assert (Nl : l <> d) by (unfold l; lia).
    assert (NDd : ~ In d (map snd D)).
    { intros I. assert (NL : forall u, cell_at h d <> Some (CList u)) by (intros u; congruence). clear - R I NL. induction R as [|kl kv D V [_ (xs & B & _)] R IH]; [destruct I|]. destruct I as [I|I]; [rewrite I in B; eapply NL, B|auto]. }
    assert (NVd : forall u, cell_at h1 d <> Some (CVec u)) by (intros u; congruence).
    split; [|split].
    + exists (D ++ [(k, l)]). split; [apply at_set; eapply at_lt, E1|]. rewrite map_app. cbn [map snd]. split; [|split].
      * apply NoDup_app; [exact ND|constructor; [intros []|constructor]|]. intros y Y [<-|[]].
        assert (l < List.length h); [|unfold l in *; lia]. eapply sealed0_refs; [exact S|exact E|exact Y].
      * rewrite SA. apply Forall2_app.
        -- match goal with |- context [setn h1 d ?c] => generalize c end. intros cd. clear - R NDd NVd. revert NDd. induction R as [|kl kv D V X R IH]; intros N; constructor.
           ++ apply entry_other; [intros Z; apply N; left; exact Z|exact NVd|]. apply entry_app, X.
           ++ apply IH. intros Z. apply N. right. exact Z.
        -- constructor; [|constructor]. split; [reflexivity|]. cbn [snd]. exists [x]. split; [rewrite at_other by exact Nl; exact El|].
           constructor; [|constructor]. apply list_vec; [exact NVd|]. eapply (fr_vec n bs); [apply fr_app|exact X].
      * intros y [->|Y]; [auto|]. apply in_app_or in Y as [Y|[<-|[]]]; [auto|]. split; [exact L|]. intros B. apply (inblk_bounds _ _ _ _ CH) in B. unfold l in B. lia.
    + eapply fr_trans; [apply fr_app|]. apply (fr_set n bs h1 d (CDict D)); auto. discriminate.
    + apply sealed0_set; [apply sealed0_alloc; [exact S|cbn; intros y [<-|[]]; exact Lx]|]. cbn [refs]. unfold h1. rewrite app_length. cbn [List.length]. intros y Y. rewrite map_app in Y. apply in_app_or in Y as [Y|[<-|[]]].
      * pose proof (sealed0_refs h d _ y S E Y). lia.
      * cbn. unfold l. lia.
Qed.

Lemma append_list : forall n bs k d xs vs h V, sealed 0 h -> n <= List.length h -> chain n bs (List.length h) -> master n bs h d V -> Forall2 (fun x v => a_vec h x = Some v) xs vs ->
  exists h' us, each (fun x => o_append_one d (k, x)) xs h = (h', Ok us) /\ master n bs h' d (fold_left (fun acc v => sappend k v acc) vs V) /\ fr n bs h h' /\ sealed 0 h'.
Proof.
  intros n bs k d. induction xs as [|x xs IH]; intros vs h V S L CH M R; inversion R as [|? v ? vs' X R']; subst.
  - exists h, []. split; [reflexivity|]. cbn. split; [exact M|]. split; [apply fr_refl|exact S].
  - destruct (append_one n bs h d V k x v S L CH M X) as (h1 & E1 & M1 & F1 & S1). assert (L1 : List.length h <= List.length h1) by apply F1.
    destruct (IH vs' h1 (sappend k v V) S1) as (h2 & us & E2 & M2 & F2 & S2); [lia|eapply chain_up; eassumption|exact M1|eapply vecs_fr; eassumption|].
    exists h2, (tt :: us). cbn [each]. unfold pbind. rewrite E1, E2. split; [reflexivity|]. split; [exact M2|]. split; [eapply fr_trans; eassumption|exact S2].
Qed.

(** A dictionary inside a block *)
Lemma append_dict : forall n bs d F V' h V, sealed 0 h -> n <= List.length h -> chain n bs (List.length h) -> master n bs h d V -> Forall2 (entry h) F V' -> (forall kl, In kl F -> inblk bs (snd kl)) ->
  exists h' us, each (fun kl => xs <~ load (as_ is_list) (snd kl) ;; each (fun x => o_append_one d (fst kl, x)) xs) F h = (h', Ok us) /\
    master n bs h' d (append_master V V') /\ fr n bs h h' /\ sealed 0 h'.
Proof.
  intros n bs d. induction F as [|kl F IH]; intros V0 h V S L CH M R B; inversion R as [|? kv ? V' X R']; subst.
  - exists h, []. split; [reflexivity|]. cbn. split; [exact M|]. split; [apply fr_refl|exact S].
  - destruct X as [A (xs & C & Q)]. destruct (append_list n bs (fst kl) d xs (snd kv) h V S L CH M Q) as (h1 & us & E1 & M1 & F1 & S1). assert (L1 : List.length h <= List.length h1) by apply F1.
    rewrite A in M1. destruct (IH V' h1 (fold_left (fun acc v => sappend (fst kv) v acc) (snd kv) V) S1) as (h2 & us2 & E2 & M2 & F2 & S2); [lia|eapply chain_up; eassumption|exact M1| | |].
    + assert (BF : forall kl, In kl F -> inblk bs (snd kl)) by (intros; apply B; right; assumption). clear - R' F1 BF.
      induction R' as [|kl kv F V' [A (ys & C & Q)] R IH]; constructor; [|apply IH; intros; apply BF; right; assumption].
      split; [exact A|]. exists ys. split; [|eapply vecs_fr; eassumption]. destruct F1 as [_ F1]. apply F1; [exact C|]. right. left. apply BF. left. reflexivity.
    + intros. apply B. right. assumption.
    + exists h2, (us :: us2). cbn [each].
      assert (EL : as_ is_list h (snd kl) = Some xs) by (unfold as_; rewrite C; reflexivity).
      rewrite (run_bind _ _ _ _ _ h1 us) by (rewrite (run_bind _ _ _ _ _ h xs (run_load _ _ _ _ _ EL)); exact E1). rewrite (run_bind _ _ _ _ _ _ _ E2).
      split; [reflexivity|]. split; [exact M2|]. split; [eapply fr_trans; eassumption|exact S2].
Qed.

(** A dictionary made by appending is what appending it to nothing gives. *)
Definition fine (d : sdict (list vec)) : Prop := NoDup (map fst d) /\ Forall (fun kv => snd kv <> []) d.

Lemma sappend_fine : forall k v (d : sdict (list vec)), fine d -> fine (sappend k v d).
Proof.
  intros k v d [A B]. induction d as [|[k1 l] d IH]; cbn.
  - split; cbn; [constructor; [intros []|constructor]|constructor; [cbn; discriminate|constructor]].
  - cbn in A. inversion A as [|? ? A1 A2]; subst. inversion B as [|? ? B1 B2]; subst. destruct (String.eqb_spec k1 k) as [->|N].
    + split; [exact A|]. constructor; [cbn; destruct l; discriminate|exact B2].
    + destruct (IH A2 B2) as [C D]. split; [|constructor; assumption]. cbn. constructor; [|exact C]. clear - A1 N. intros I. apply A1. clear A1.
      induction d as [|[k2 l2] d IH]; cbn in *; [destruct I as [<-|[]]; contradiction|]. destruct (String.eqb_spec k2 k) as [->|M]; cbn in I; tauto.
Qed.

Lemma populate_fine : forall (ts : list (term T)) d d', fine d -> foldM (fun d t => match t_f t with
                    | Some f => Ok (sappend (phonon_config_id (cfg (t_cfg t))) f d) | None => Err AttributeError end) ts d = Ok d' -> fine d'.
Proof.
  induction ts as [|t ts IH]; cbn; intros d d' F E; [congruence|]. destruct (t_f t); [|discriminate]. cbn in E. eapply IH; [|exact E]. apply sappend_fine, F.
Qed.

Lemma append_fresh : forall k (vs : list vec) v (d : sdict (list vec)), ~ In k (map fst d) -> fold_left (fun acc v => sappend k v acc) (v :: vs) d = d ++ [(k, v :: vs)].
Proof.
  intros k vs v d N. cbn. assert (E : sappend k v d = d ++ [(k, [v])]).
  { induction d as [|[k1 l] d IH]; cbn in *; [reflexivity|]. destruct (String.eqb_spec k1 k) as [->|M]; [exfalso; auto|]. f_equal. apply IH. auto. }
  rewrite E. change (v :: vs) with ([v] ++ vs). generalize [v]. clear E. induction vs as [|w vs IH]; intros l; cbn; [rewrite app_nil_r; reflexivity|].
  assert (E : sappend k w (d ++ [(k, l)]) = d ++ [(k, l ++ [w])]).
  { clear IH. induction d as [|[k1 l1] d IH]; cbn in *; [rewrite String.eqb_refl; reflexivity|]. destruct (String.eqb_spec k1 k) as [->|M]; [exfalso; auto|]. f_equal. apply IH. auto. }
  rewrite E, IH, <- app_assoc. reflexivity.
Qed.

Lemma append_nil : forall d, fine d -> append_master [] d = d.
Proof.
  intros d. unfold append_master. assert (G : forall d0, fine (d0 ++ d) -> fold_left (fun acc kv => fold_left (fun acc' v => sappend (fst kv) v acc') (snd kv) acc) d d0 = d0 ++ d).
  { induction d as [|[k l] d IH]; intros d0 [A B]; cbn; [rewrite app_nil_r; reflexivity|]. rewrite Forall_forall in B. assert (NL : l <> []) by (apply (B (k, l)), in_or_app; right; left; reflexivity).
    destruct l as [|v l]; [contradiction|]. change (fold_left (fun acc' v0 => sappend k v0 acc') l (sappend k v d0)) with (fold_left (fun acc v => sappend k v acc) (v :: l) d0).
    rewrite append_fresh.
    - rewrite IH; [rewrite <- app_assoc; reflexivity|]. rewrite <- app_assoc. split; [exact A|]. apply Forall_forall. exact B.
    - intros I. rewrite map_app in A. cbn in A. apply (NoDup_app_disj _ _ _ A k I). left. reflexivity. }
  intros F. apply (G []). exact F.
Qed.

(** system.py:142-155 *)
Definition mst (n : nat) (bs : list spot) h (mo : option loc) (V : sdict (list vec)) : Prop :=
  match mo with None => V = [] | Some d => master n bs h d V end.

Lemma master_more : forall n bs s h d V, master n bs h d V -> (forall y, y < List.length h -> ~ fst (snd s) <= y < snd (snd s)) -> sealed 0 h -> master n (bs ++ [s]) h d V.
Proof.
  intros n bs s h d V (D & E & ND & R & O) H S. exists D. split; [exact E|]. split; [exact ND|]. split; [exact R|]. intros y Y. destruct (O y Y) as [O1 O2]. split; [exact O1|].
  intros (s' & I & L). apply in_app_or in I as [I|[<-|[]]]; [apply O2; exists s'; auto|]. revert L. apply H. destruct Y as [->|Y]; [eapply at_lt, E|]. eapply sealed0_refs; [exact S|exact E|exact Y].
Qed.

Lemma master_keeps : forall n bs h h' d V, keeps (List.length h) h h' -> master n bs h d V -> master n bs h' d V.
Proof.
  intros n bs h h' d V K (D & E & ND & R & O). assert (U : forall y c, cell_at h y = Some c -> cell_at h' y = Some c) by (intros y c C; eapply keeps_at; [exact K|eapply at_lt, C|exact C]).
  exists D. split; [auto|]. split; [exact ND|]. split; [|exact O]. clear - R U. induction R as [|kl kv D V [A (xs & B & C)] R IH]; constructor; [|exact IH].
  split; [exact A|]. exists xs. split; [auto|]. clear - C U. induction C as [|x v xs vs X C IH]; constructor; [|exact IH]. unfold a_vec in *. destruct (cell_at h x) eqn:Y; [|discriminate]. rewrite (U _ _ Y). exact X.
Qed.

Lemma append_master_spec : forall mm n bs s vs v h mo V, sealed 0 h -> n <= List.length h -> chain n (bs ++ [s]) (List.length h) -> placed mm h (bs ++ [s]) (vs ++ [v])->
  mst n (bs ++ [s]) h mo V -> fine (e_fargs v) ->
  exists h' d, o_append_master mo (fst s) h = (h', Ok d) /\ master n (bs ++ [s]) h' d (append_master V (e_fargs v)) /\ fr n (bs ++ [s]) h h' /\ sealed 0 h'.
Proof.
  intros mm n bs s vs v h mo V S L CH P M F.
  assert (PS : block (fst (snd s)) (snd (snd s)) h /\ fst (snd s) <= fst s < snd (snd s) /\ a_eq h (fst s) = Some v /\ sep mm h (fst s)).
  { apply Forall2_app_inv_l in P as (v1 & v2 & P1 & P2 & E). inversion P2 as [|? w ? ? Q P3]; subst. inversion P3; subst.
    apply app_inj_tail in E as [_ ->]. exact Q. }
  destruct PS as (BK & LE & EV & [_ (g & i & m & tl & d & ts & D & C1 & C2 & C3 & N1 & _)]).
  unfold a_eq in EV. rewrite C1 in EV. destruct (a_term h i); [|discriminate]. destruct (a_list (a_term h) h tl); [|discriminate]. destruct (a_dict h d) as [W|] eqn:Ed; [|discriminate]. cbn in EV. injection EV as <-. cbn [e_fargs] in *.
  assert (Bd : fst (snd s) <= d < snd (snd s)). { destruct (BK _ LE) as [c [X Y]]. rewrite C1 in X. injection X as <-. apply Y. cbn. auto. }
  destruct (dict_entries h d W Ed) as (D' & C3' & R). rewrite C3 in C3'. injection C3' as <-.
  unfold o_append_master. assert (EL : as_ is_eq h (fst s) = Some (i, m, tl, d)) by (unfold as_; rewrite C1; reflexivity).
  rewrite (run_bind _ _ _ _ _ _ _ (run_load _ _ _ _ _ EL)). cbn beta iota. destruct mo as [dm|]; cbn [mst] in M.
  - assert (ED : as_ is_dict h d = Some D) by (unfold as_; rewrite C3; reflexivity). rewrite (run_bind _ _ _ _ _ _ _ (run_load _ _ _ _ _ ED)).
    destruct (append_dict n (bs ++ [s]) dm D W h V S L CH M R) as (h' & us & E & M' & F' & S').
    { intros kl I. exists s. split; [apply in_or_app; right; left; reflexivity|]. destruct (BK _ Bd) as [c [X Y]]. rewrite C3 in X. injection X as <-. apply Y. cbn. apply in_map, I. }
    exists h', dm. rewrite (run_bind _ _ _ _ _ _ _ E). auto.
  - subst V. destruct (deepcopy_spec h d S (at_lt _ _ _ C3)) as (h' & d' & P' & p & E & C & SE). exists h', d'. split; [exact E|]. rewrite append_nil by exact F.
    pose proof (cp_iso _ _ _ _ _ _ C) as I. pose proof (cp_root _ _ _ _ _ _ C) as Rt. pose proof (cp_loc _ _ _ _ _ _ C) as Lo.
    assert (K : keeps (List.length h) h h') by apply (cp_below _ _ _ _ _ _ C). assert (LH : List.length h <= List.length h') by apply K.
    split; [|split; [|apply SE; [lia|exact S]]].
    + assert (PD : forall y, In y (map snd D) -> P' y) by (intros y Y; apply (iso_refs _ _ _ _ I d _ y Rt C3 Y)).
      assert (Ed' : cell_at h' d' = Some (relink p (CDict D))) by (rewrite Lo, (iso_cell _ _ _ _ I d Rt), C3; reflexivity). cbn [relink] in Ed'.
      assert (Wd : a_dict h' d' = Some W) by (rewrite Lo, (iso_dict _ _ _ _ I d Rt); exact Ed).
      destruct (dict_entries h' d' W Wd) as (D2 & C4 & R2). rewrite Ed' in C4. injection C4 as <-. eexists. split; [exact Ed'|].
      assert (MS : map snd (map (fun kv : string * loc => (fst kv, p (snd kv))) D) = map p (map snd D)) by (rewrite !map_map; reflexivity). rewrite MS.
      split; [apply (inj_NoDup P'); [apply (cp_inj _ _ _ _ _ _ C)|exact PD|exact N1]|]. split; [exact R2|].
      intros y Y. assert (LY : List.length h <= y). { destruct Y as [->|Y]; [rewrite Lo; apply (cp_in _ _ _ _ _ _ C _ Rt)|]. apply in_map_iff in Y as [z [<- Z]]. apply (cp_in _ _ _ _ _ _ C). auto. }
      split; [lia|]. intros B. apply (inblk_bounds _ _ _ _ CH) in B. lia.
    + split; [exact LH|]. intros y c Y _. eapply keeps_at; [exact K|eapply at_lt, Y|exact Y].
Qed.
End Master.
