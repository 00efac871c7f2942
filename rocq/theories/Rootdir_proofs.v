(** Proofs about the files of a System under several processes (Conc.v). *)
From Coq Require Import String ZArith List Arith Bool Lia.
From Verif Require Import Base Config Model Space Render Term Equation System Cache Cache_proofs Checkpoint Checkpoint_proofs Spec_checkpoint Conc Spec_conc Interleave_proofs.
Import ListNotations.
Open Scope nat_scope.
Open Scope list_scope.

(** * Processes that read and write *)
Section Safe.
Context {V A : Type}.
Variable names : list string.
Variable F : string -> V.

Inductive safe (R : A -> Prop) (E : exn -> Prop) : list string -> prog V A -> Prop :=
| s_ret K a : R a -> safe R E K (Ret a)
| s_raise K x : E x -> safe R E K (Raise x)
| s_exists K f k : safe R E (f :: K) (k true) -> safe R E K (k false) -> safe R E K (Exists f k)
| s_load K f x k : In f names -> In f K -> E x -> safe R E K (k (F f)) -> safe R E K (Load f x k)
| s_trunc K f k : safe R E K k -> safe R E K (Truncate f k)
| s_close K f k : safe R E K k -> safe R E K (Close f (F f) k).

Lemma safe_incl : forall R E K p, safe R E K p -> forall K', incl K K' -> safe R E K' p.
Proof.
  induction 1; intros K' I; constructor; auto.
  apply IHsafe1. intros x [<-|X]; [left; reflexivity|right; apply I, X].
Qed.

Variable R : nat -> A -> Prop.
Variable E : nat -> exn -> Prop.
Definition all_safe (s : list (prog V A) * dir V) : Prop :=
  (forall i p, nth_error (fst s) i = Some p -> exists K, (forall f, In f K -> fget f (snd s) <> None) /\ safe (R i) (E i) K p) /\
  holds names F (snd s).

Lemma all_safe_run : forall l s, all_safe s -> all_safe (run l s).
Proof.
  apply run_invariant. intros i ps d p d' [S H] Ei AF. cbn [fst snd] in *.
  destruct (S i p Ei) as (K & PK & SK).
  assert (P : forall f, fget f d <> None -> fget f d' <> None).
  { intros f X. eapply present_after; [exact AF|]. apply present_step, X. }
  split; cbn [fst snd].
  - intros j q. rewrite (nth_turn _ _ _ _ _ Ei). destruct (Nat.eqb_spec i j) as [<-|N].
    + intros [= <-]. inversion SK; subst; cbn [step fst snd] in *.
      * exists K. split; [auto|exact SK].
      * exists K. split; [auto|exact SK].
      * destruct (fget f d) eqn:G.
        -- exists (f :: K). split; [intros g [<-|X]; apply P; [congruence|apply PK, X]|assumption].
        -- exists K. split; [auto|assumption].
      * exists K. split; [auto|]. destruct (fget f d) as [[v|]|] eqn:G.
        -- rewrite (H f H0 v G). assumption.
        -- constructor. assumption.
        -- exfalso. apply (PK f); assumption.
      * exists K. split; [auto|assumption].
      * exists K. split; [auto|assumption].
    + intros Hq. destruct (S j q Hq) as (K' & PK' & SK'). exists K'. split; [auto|exact SK'].
  - assert (OLD : holds names F (snd (step p d))).
    { intros f Hn v. inversion SK; subst; cbn [step snd fst]; try (apply H; assumption).
      - rewrite fget_fput. destruct (String.eqb_spec f0 f) as [->|N]; [discriminate|]. apply H; assumption.
      - rewrite fget_fput. destruct (String.eqb_spec f0 f) as [->|N]; [|apply H; assumption]. congruence. }
    destruct AF as [->|(g & v & k & j & v' & k' & _ & _ & ->)]; [exact OLD|].
    intros f Hn w. rewrite fget_fput. destruct (String.eqb g f); [discriminate|]. apply OLD, Hn.
Qed.

Lemma safe_over : forall (R : A -> Prop) (E : exn -> Prop) K (p : prog V A), safe R E K p -> over p -> (exists a, p = Ret a /\ R a) \/ (exists x, p = Raise x /\ E x).
Proof. intros R0 E0 K p H O. destruct H; cbn in O; try contradiction; [left; exists a; auto|right; exists x; auto]. Qed.

Lemma writer_safe : forall (R : A -> Prop) (E : exn -> Prop) a p, R a -> writer F a p -> safe R E [] p.
Proof.
  intros R0 E0 a p Ra H. induction H.
  - constructor. exact Ra.
  - constructor; [|apply H0]. eapply safe_incl; [apply H0|]. intros x [].
  - constructor. constructor. exact IHwriter.
  - constructor. exact IHwriter.
Qed.
End Safe.

(** * The programs of a System *)
Section Programs.
Context {T : Type}.
Variable ord : string -> list vec -> list vec.
Implicit Types (m : model T) (s : system T) (k : prg T).
Notation F := root_file.

Lemma F_model : forall s, F s f_model = OJson (json_of_model (s_model s)). Proof. reflexivity. Qed.
Lemma F_gen : forall s, F s f_gen = OEqs (s_gen s). Proof. reflexivity. Qed.
Lemma F_args : forall s, F s f_args = OArgs (s_fargs s). Proof. reflexivity. Qed.
Lemma F_eqs : forall s, F s f_eqs = OEqs (s_eqs s). Proof. reflexivity. Qed.

Lemma pin_json : forall m, json_of_model (pin m) = json_of_model m.
Proof. intros m. unfold json_of_model. rewrite pin_ae. reflexivity. Qed.

(** ** Predicates closed under the operations of a System *)
Section Closed.
Variable s : system T.
Variable W : prg T -> Prop.
Hypothesis W_exists : forall f (k : bool -> prg T), W (k true) -> W (k false) -> W (Exists f k).
Hypothesis W_write : forall f k, In f root_names -> W k -> W (Truncate f (Close f (F s f) k)).

Lemma closed_dump : forall f o k, In f root_names -> (forall v, o = Some v -> v = F s f) -> W k -> W (p_dump f o k).
Proof. intros f o k I H Wk. destruct o as [v|]; [|exact Wk]. cbn [p_dump]. apply W_exists; [exact Wk|]. rewrite (H v eq_refl). apply W_write; assumption. Qed.

Lemma closed_checkpoint : forall lim fl e k, (fl = None \/ fl = Some (s_fargs s)) -> (e = None \/ e = Some (s_eqs s)) ->
  W k -> W (p_checkpoint lim (Some (s_gen s)) fl e k).
Proof.
  intros lim fl e k Hf He Wk. unfold p_checkpoint. destruct (too_many lim e); [exact Wk|].
  apply closed_dump; [cbn; auto|intros v [= <-]; reflexivity|].
  apply closed_dump; [cbn; auto|destruct Hf as [-> | ->]; [discriminate|intros v [= <-]; reflexivity]|].
  apply closed_dump; [cbn; auto|destruct He as [-> | ->]; [discriminate|intros v [= <-]; reflexivity]|]. exact Wk.
Qed.

(** The constructor on whatever was loaded. *)
Lemma closed_init : forall m gen fl e lim kk, prime_system ord (s_model s) = Ok s -> same_attributes (s_model s) m ->
  json_of_model m = json_of_model (s_model s) ->
  (gen = None \/ gen = Some (s_gen s)) -> (fl = None \/ fl = Some (s_fargs s)) -> (e = None \/ e = Some (s_eqs s)) ->
  (gen = None -> fl <> None -> settled ord) -> ((gen <> None -> fl = None -> e = None -> W (Raise AttributeError))) ->
  (forall fl', fl' = None \/ fl' = Some (s_fargs s) -> (gen = None \/ fl <> None -> fl' <> None) -> W (kk (mkPy m (s_gen s) fl' (s_eqs s) lim))) ->
  W (p_init ord m gen fl e lim kk).
Proof.
  intros m gen fl e lim kk E SA J HG HF HE HS HA HK. destruct (prime_parts _ _ _ E) as [sp [E1 [E2 [E3 [E4 _]]]]].
  destruct (same_generalized (s_model s) m ord SA) as [S1 S2]. unfold p_init, p_save.
  assert (M : json_of_model m = json_of_model (s_model s)) by exact J. rewrite M.
  change (@OJson T (json_of_model (s_model s))) with (F s f_model). apply W_write; [cbn; auto|].
  match goal with |- W (match ?x with Ok _ => _ | Err _ => _ end) =>
  assert (X : exists fl', x = Ok (s_gen s, fl') /\ (fl' = None \/ fl' = Some (s_fargs s)) /\ (gen = None \/ fl <> None -> fl' <> None) /\ (fl' = None -> gen <> None /\ fl = None)) end.
  { destruct HG as [-> | ->].
    - exists (Some (s_fargs s)). rewrite S1, E1. cbn [bind]. rewrite S2. replace (generalized_on fl ord (s_model s) sp) with (Ok (s_gen s, s_fargs s) : result (geqs T * sdict (list vec))); [cbn [bind]; repeat split; auto; discriminate|].
      destruct HF as [-> | ->]; symmetry; [exact E2|apply regenerated; [apply HS; [reflexivity|discriminate]|exact E2]].
    - exists fl. repeat split; auto; [|discriminate]. intros [X|X]; [discriminate|exact X]. }
  destruct X as (fl' & -> & F1 & F2 & F3).
  apply closed_checkpoint; [exact F1|exact HE|].
  match goal with |- W (match ?x with Ok _ => _ | Err _ => _ end) =>
  assert (Y : x = Ok (s_eqs s) \/ (e = None /\ fl' = None)) end.
  { destruct HE as [-> | ->]; [|left; reflexivity]. destruct F1 as [-> | ->]; [right; auto|left; exact E3]. }
  destruct Y as [->|[-> ->]].
  - apply closed_checkpoint; [exact F1|right; reflexivity|]. rewrite E4. apply HK; assumption.
  - destruct (F3 eq_refl) as [G1 G2]. apply HA; auto.
Qed.
End Closed.

Lemma same_refl : forall m, same_attributes m m.
Proof. intros m. constructor; reflexivity. Qed.

(** ** Construction *)
Lemma new_writer : forall s lim, prime_system ord (s_model s) = Ok s -> writer (F s) (py_of lim s) (p_new_solver ord (s_model s) lim).
Proof.
  intros s lim E. unfold p_new_solver.
  apply (closed_init s (writer (F s) (py_of lim s))); auto using same_refl; try (intros; constructor; assumption).
  - intros f k A B. constructor. intros [|]; assumption.
  - intros _ X. contradiction.
  - intros X. contradiction.
  - intros fl' [-> | ->] H; [exfalso; apply H; auto|].
    unfold p_again. cbn [py_lim py_gen py_fargs py_eqs].
    apply (closed_checkpoint s (writer (F s) (py_of lim s))); auto.
    + intros f k A B. constructor. intros [|]; assumption.
    + intros f k _ A. constructor. exact A.
    + destruct s. apply w_ret.
Qed.

Lemma within_dump : forall n f o k, within n k -> within (3 + n) (p_dump (T := T) f o k).
Proof.
  intros n f o k H. destruct o as [v|]; cbn [p_dump Nat.add]; [|apply (within_mono n); [exact H|lia]].
  constructor. intros [|]; [apply (within_mono n); [exact H|lia]|]. constructor. constructor. exact H.
Qed.
Lemma within_checkpoint : forall n lim g fl e k, within n k -> within (9 + n) (p_checkpoint (T := T) lim g fl e k).
Proof.
  intros n lim g fl e k H. unfold p_checkpoint. destruct (too_many lim e); [apply (within_mono n); [exact H|lia]|].
  replace (9 + n) with (3 + (3 + (3 + n))) by lia. repeat apply within_dump. exact H.
Qed.
Lemma within_init : forall n m g fl e lim kk, (forall p, within n (kk p)) -> within (20 + n) (p_init (T := T) ord m g fl e lim kk).
Proof.
  intros n m g fl e lim kk H. unfold p_init, p_save. cbn [Nat.add]. constructor. constructor.
  match goal with |- within _ (match ?x with Ok _ => _ | Err _ => _ end) => destruct x as [[g' fl']|?] end; [|constructor].
  apply (within_checkpoint (9 + n)).
  match goal with |- within _ (match ?x with Ok _ => _ | Err _ => _ end) => destruct x as [e'|?] end; [|constructor].
  apply within_checkpoint. destruct (final_checks e'); [apply H|constructor].
Qed.
Lemma within_again : forall p, within 9 (p_again (T := T) p).
Proof. intros p. apply (within_checkpoint 0). constructor. Qed.
Lemma within_new : forall m lim, within 29 (p_new_solver (T := T) ord m lim).
Proof. intros m lim. apply (within_init 9). exact within_again. Qed.
Lemma within_root : within 37 (p_root_solver (T := T) ord).
Proof.
  unfold p_root_solver, p_reload. constructor. intros [|]; [|constructor]. constructor. intros [j| |]; try constructor.
  destruct (model_of_json j) as [m|x]; [|constructor].
  assert (G : forall g fl e, within 29 (p_init (T := T) ord m g fl e default_lim (p_again (T := T)))) by (intros; apply (within_init 9); exact within_again).
  assert (O : forall n f (kk : option (obj T) -> prg T), (forall o, within n (kk o)) ->
    within (S (S n)) (p_opt f kk)).
  { intros n f kk H. unfold p_opt. constructor. intros [|]; [constructor; intros v; apply H|]. apply (within_mono n); [apply H|lia]. }
  apply (O 33). intros [[| |]|]; cbn [as_eqs]; try apply in_raise; apply (O 31); intros [[| |]|]; cbn [as_args]; try apply in_raise;
    apply (O 29); intros [[| |]|]; cbn [as_eqs]; try apply in_raise; apply G.
Qed.

(** Files made. *)
Lemma will_dump : forall f f' v k, will f k \/ f = f' -> will (V := obj T) (A := pysystem T) f (p_dump f' (Some v) k).
Proof.
  intros f f' v k H. cbn [p_dump]. destruct (String.eqb_spec f f') as [->|N].
  - apply l_test. apply l_this.
  - destruct H as [H|H]; [|contradiction]. apply l_exists. intros [|]; [exact H|]. apply l_trunc, l_close, H.
Qed.
Lemma will_new : forall s lim f, prime_system ord (s_model s) = Ok s ->
  (f = f_model \/ f = f_gen \/ f = f_args \/ (f = f_eqs /\ too_many lim (Some (s_eqs s)) = false)) -> will f (p_new_solver ord (s_model s) lim).
Proof.
  intros s lim f E H. destruct (prime_parts _ _ _ E) as [sp [E1 [E2 [E3 [E4 _]]]]].
  unfold p_new_solver, p_init, p_save. destruct H as [->|H]; [apply l_this|]. apply l_trunc, l_close.
  rewrite E1. cbn [bind]. rewrite generalized_none, E2. cbn [bind]. unfold p_checkpoint at 1. cbn [too_many option_map].
  destruct H as [->|H]; [apply will_dump; right; reflexivity|]. apply will_dump. left.
  destruct H as [->|[-> H]]; [apply will_dump; right; reflexivity|]. apply will_dump. left. cbn [p_dump]. rewrite E3.
  unfold p_checkpoint at 1. cbn [too_many] in *. rewrite H. cbn [option_map]. apply will_dump. left. apply will_dump. left. apply will_dump. right. reflexivity.
Qed.

(** ** Reading *)
Definition reload_errors (x : exn) : Prop := x = SystemExit \/ x = ValueError \/ x = EOFError \/ x = AttributeError.
Definition reloaded (s : system T) (p : pysystem T) : Prop :=
  same_attributes (s_model s) (py_model p) /\ py_gen p = s_gen s /\ py_eqs p = s_eqs s /\ (py_fargs p = None \/ py_fargs p = Some (s_fargs s)).

Lemma root_safe : forall s, prime_system ord (s_model s) = Ok s -> storable (s_model s) -> settled ord ->
  safe root_names (F s) (reloaded s) reload_errors [] (p_root_solver ord).
Proof.
  intros s E ST SE. unfold p_root_solver, p_reload. unfold reload_errors in *.
  assert (CK : forall K fl e k, (fl = None \/ fl = Some (s_fargs s)) -> (e = None \/ e = Some (s_eqs s)) ->
     safe root_names (F s) (reloaded s) reload_errors K k -> safe root_names (F s) (reloaded s) reload_errors K (p_checkpoint default_lim (Some (s_gen s)) fl e k)).
  { intros K fl e k A B C. apply (closed_checkpoint s (safe root_names (F s) (reloaded s) reload_errors K)); auto.
    - intros f k' X Y. constructor; [|exact Y]. eapply safe_incl; [exact X|]. intros z Z. right. exact Z.
    - intros f k' _ X. constructor. constructor. exact X. }
  constructor; [|constructor; left; reflexivity]. constructor; [cbn; auto|left; reflexivity|right; left; reflexivity|].
  rewrite F_model, (model_roundtrip _ ST).
  assert (INIT : forall K g fl e, (g = None \/ g = Some (s_gen s)) -> (fl = None \/ fl = Some (s_fargs s)) -> (e = None \/ e = Some (s_eqs s)) ->
     safe root_names (F s) (reloaded s) reload_errors K (p_init ord (pin (s_model s)) g fl e default_lim (p_again (T := T)))).
  { intros K g fl e HG HF HE. apply (closed_init s (safe root_names (F s) (reloaded s) reload_errors K)); auto.
    - intros f k' X Y. constructor; [|exact Y]. eapply safe_incl; [exact X|]. intros z Z. right. exact Z.
    - intros f k' _ X. constructor. constructor. exact X.
    - apply pin_same.
    - apply pin_json.
    - intros _ _ _. constructor. unfold reload_errors. auto.
    - intros fl' H1 _. unfold p_again. cbn [py_lim py_gen py_fargs py_eqs]. apply CK; [exact H1|right; reflexivity|].
      constructor. unfold reloaded. cbn [py_model py_gen py_fargs py_eqs]. split; [apply pin_same|]. auto. }
  unfold p_opt.
  constructor; [constructor; [cbn; auto|left; reflexivity|unfold reload_errors; auto|]; rewrite F_gen|]; cbn [as_eqs];
   (constructor; [constructor; [cbn; auto|left; reflexivity|unfold reload_errors; auto|]; rewrite F_args|]; cbn [as_args];
     (constructor; [constructor; [cbn; auto|left; reflexivity|unfold reload_errors; auto|]; rewrite F_eqs|]; cbn [as_eqs]; apply INIT; auto)).
Qed.

(** ** Alone *)
Definition agrees (x : result (pysystem T) * dir (obj T)) (y : list (cdir T) * result (pysystem T)) (c : cdir T) : Prop :=
  fst x = snd y /\ same_files (snd x) (final (fst y) c).

Lemma same_put_model : forall (d : dir (obj T)) c x, same_files d c -> same_files (fput f_model (match x with Complete j => Complete (OJson j) | Torn => Torn end) d) (put_model x c).
Proof.
  intros d c x [A B C D]. constructor; cbn [put_model c_model c_gen c_fargs c_eqs].
  - rewrite fget_same. destruct x; reflexivity.
  - rewrite fget_other by discriminate. exact B.
  - rewrite fget_other by discriminate. exact C.
  - rewrite fget_other by discriminate. exact D.
Qed.
Lemma same_put_gen : forall (d : dir (obj T)) c x, same_files d c -> same_files (fput f_gen (match x with Complete j => Complete (OEqs j) | Torn => Torn end) d) (put_gen x c).
Proof.
  intros d c x [A B C D]. constructor; cbn [put_gen c_model c_gen c_fargs c_eqs].
  - rewrite fget_other by discriminate. exact A.
  - rewrite fget_same. destruct x; reflexivity.
  - rewrite fget_other by discriminate. exact C.
  - rewrite fget_other by discriminate. exact D.
Qed.
Lemma same_put_fargs : forall (d : dir (obj T)) c x, same_files d c -> same_files (fput f_args (match x with Complete j => Complete (OArgs j) | Torn => Torn end) d) (put_fargs x c).
Proof.
  intros d c x [A B C D]. constructor; cbn [put_fargs c_model c_gen c_fargs c_eqs].
  - rewrite fget_other by discriminate. exact A.
  - rewrite fget_other by discriminate. exact B.
  - rewrite fget_same. destruct x; reflexivity.
  - rewrite fget_other by discriminate. exact D.
Qed.
Lemma same_put_eqs : forall (d : dir (obj T)) c x, same_files d c -> same_files (fput f_eqs (match x with Complete j => Complete (OEqs j) | Torn => Torn end) d) (put_eqs x c).
Proof.
  intros d c x [A B C D]. constructor; cbn [put_eqs c_model c_gen c_fargs c_eqs].
  - rewrite fget_other by discriminate. exact A.
  - rewrite fget_other by discriminate. exact B.
  - rewrite fget_other by discriminate. exact C.
  - rewrite fget_same. destruct x; reflexivity.
Qed.

Lemma solo_dump : forall X (con : X -> obj T) f put (get : cdir T -> option (content X)) o k d c,
  (forall d c x, same_files d c -> same_files (fput f (match x with Complete j => Complete (con j) | Torn => Torn end) d) (put x c)) ->
  (forall x y c, put x (put y c) = put x c) ->
  fget f d = file_as con (get c) -> same_files d c ->
  exists d', solo (p_dump f (option_map con o) k) d = solo k d' /\ same_files d' (final (dump put (get c) o c) c).
Proof.
  intros X con f put get o k d c HP PP G S. destruct o as [x|]; cbn [option_map p_dump dump]; [|exists d; auto].
  cbn [solo]. rewrite G. destruct (get c) as [[y|]|]; cbn [file_as].
  - exists d. auto.
  - exists d. auto.
  - cbn [solo]. eexists. split; [reflexivity|]. cbn [final last].
    rewrite <- (PP (Complete x) Torn c). apply (HP _ _ (Complete x)). apply (HP _ _ Torn). exact S.
Qed.

Lemma final_app' : forall (a b : list (cdir T)) c, final (a ++ b) c = final b (final a c).
Proof. intros. apply final_app. Qed.

Lemma solo_checkpoint : forall lim g fl e k d c, same_files d c ->
  exists d', solo (p_checkpoint lim g fl e k) d = solo k d' /\ same_files d' (final (checkpoint lim g fl e c) c).
Proof.
  intros lim g fl e k d c S. unfold p_checkpoint, checkpoint. destruct (too_many lim e); [exists d; auto|].
  destruct (solo_dump _ OEqs f_gen put_gen c_gen g (p_dump f_args (option_map OArgs fl) (p_dump f_eqs (option_map OEqs e) k)) d c same_put_gen) as (d1 & -> & S1); [reflexivity|apply S|exact S|].
  destruct (solo_dump _ OArgs f_args put_fargs c_fargs fl (p_dump f_eqs (option_map OEqs e) k) d1 _ same_put_fargs ltac:(reflexivity) (sf_fargs _ _ S1) S1) as (d2 & -> & S2).
  destruct (solo_dump _ OEqs f_eqs put_eqs c_eqs e k d2 _ same_put_eqs ltac:(reflexivity) (sf_eqs _ _ S2) S2) as (d3 & -> & S3).
  exists d3. split; [reflexivity|]. cbv zeta. rewrite !final_app'. exact S3.
Qed.

Lemma solo_init : forall m g fl e lim d c, same_files d c ->
  agrees (solo (p_init ord m g fl e lim (fun p => Ret p)) d) (system_init ord m g fl e lim true c) c.
Proof.
  intros m g fl e lim d c S. unfold p_init, p_save, system_init. cbn [solo with_root].
  set (d1 := fput f_model _ (fput f_model _ d)).
  assert (S1 : same_files d1 (final (save_model m c) c)).
  { cbn [save_model final last]. change (put_model (Complete (json_of_model m)) c) with (put_model (Complete (json_of_model m)) (put_model Torn c)).
    apply (same_put_model _ _ (Complete (json_of_model m))). apply (same_put_model _ _ Torn). exact S. }
  clearbody d1. set (c1 := final (save_model m c) c) in *.
  match goal with |- agrees (solo (match ?x with Ok _ => _ | Err _ => _ end) _) _ _ => destruct x as [[g' fl']|?] end;
    [|split; [reflexivity|exact S1]].
  match goal with |- agrees (solo (p_checkpoint lim (Some g') fl' e ?k) d1) _ _ => destruct (solo_checkpoint lim (Some g') fl' e k d1 c1 S1) as (d2 & -> & S2) end.
  match goal with |- agrees (solo (match ?x with Ok _ => _ | Err _ => _ end) _) _ _ => destruct x as [e'|?] end.
  - match goal with |- agrees (solo (p_checkpoint lim (Some g') fl' (Some e') ?k) d2) _ _ => destruct (solo_checkpoint lim (Some g') fl' (Some e') k d2 _ S2) as (d3 & -> & S3) end.
    destruct (final_checks e') as [[]|x]; (split; cbn [fst snd bind solo]; [reflexivity|rewrite !final_app'; exact S3]).
  - split; cbn [fst snd bind solo]; [reflexivity|rewrite !final_app'; exact S2].
Qed.

Lemma solo_reload : forall d c, same_files d c -> agrees (solo (p_reload ord (fun p => Ret p)) d) (from_checkpoint ord c) c.
Proof.
  intros d c S. pose proof S as [A B C D]. unfold p_reload, from_checkpoint, p_opt. cbn [solo]. rewrite A.
  destruct (c_model c) as [[j|]|]; cbn [file_as solo]; rewrite ?A; cbn [file_as solo]; try (split; [reflexivity|exact S]).
  destruct (model_of_json j) as [m|x]; cbn [bind]; [|split; [reflexivity|exact S]]. cbn [solo]. rewrite B.
  destruct (c_gen c) as [[g|]|]; cbn [file_as solo load unpickle bind]; rewrite ?B; cbn [file_as as_eqs solo]; try (split; [reflexivity|exact S]); rewrite C;
  (destruct (c_fargs c) as [[fl|]|]; cbn [file_as solo load unpickle bind]; rewrite ?C; cbn [file_as as_args solo]; try (split; [reflexivity|exact S]); rewrite D;
   (destruct (c_eqs c) as [[e|]|]; cbn [file_as solo load unpickle bind]; rewrite ?D; cbn [file_as as_eqs solo]; try (split; [reflexivity|exact S]); apply solo_init; exact S)).
Qed.
End Programs.
