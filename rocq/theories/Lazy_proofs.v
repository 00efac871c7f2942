(** Lemmas on Lazy.v. *)
From Coq Require Import String ZArith List Bool Lia.
From Verif Require Import Base NdArray Config Model Space Render Term Equation System Ring Coef Solvers Cache Checkpoint Spec_checkpoint Checkpoint_proofs Mpi Petsc Basis Lazy Spec_lazy.
Import ListNotations.
Open Scope list_scope.
Open Scope Z_scope.

Section Objects.
Context {T : Type}.
Variable ord : string -> list vec -> list vec.

Lemma split_init : forall (m : model T) gen fargs eqs lim root d,
  let w0 := fst (create m gen fargs eqs lim root d) in let x := snd (create m gen fargs eqs lim root d) in
  fst (system_init ord m gen fargs eqs lim root d) = w0 ++ fst (prime ord x (final w0 d)) /\
  same_outcome (snd (prime ord x (final w0 d))) (snd (system_init ord m gen fargs eqs lim root d)).
Proof.
  intros. unfold w0, x. unfold create, prime, system_init, lcheckpoint. cbn [fst snd ls_model ls_gen ls_fargs ls_eqs ls_lim ls_root].
  destruct (match gen with Some g => Ok (g, fargs) | None => _ end) as [[g fl]|y]; [|cbn; rewrite app_nil_r; split; reflexivity].
  cbn [ls_model ls_gen ls_fargs ls_eqs ls_lim ls_root].
  destruct (match eqs with Some e => Ok e | None => _ end) as [e|y]; cbn [fst snd]; [|split; reflexivity]. split; [reflexivity|].
  destruct (final_checks e); cbn [bind same_outcome]; [|reflexivity]. cbn. auto.
Qed.

Lemma lrun_app : forall a b (st : lsystem T * cdir T), lrun ord st (a ++ b) = let '(st1, o1) := lrun ord st a in let '(st2, o2) := lrun ord st1 b in (st2, o1 ++ o2).
Proof.
  induction a as [|v a IH]; intros b st; cbn [app lrun]; [destruct (lrun ord st b); reflexivity|].
  destruct (lstep ord st v) as [st1 o]. rewrite IH. destruct (lrun ord st1 a) as [st2 o2]. destruct (lrun ord st2 b); reflexivity.
Qed.

Lemma bare_checkpoint : forall (m : model T) lim root d, lcheckpoint (bare m lim root) d = [].
Proof. intros m lim [|] d; reflexivity. Qed.
Lemma no_eqs_checkpoint_bare : forall (m : model T) lim root d, final (lcheckpoint (bare m lim root) d) d = d.
Proof. intros. rewrite bare_checkpoint. reflexivity. Qed.

Lemma idle_run : forall (m : model T) lim root vs d, Forall idle vs ->
  lrun ord (bare m lim root, d) vs = ((bare m lim root, d), map unprimed_outcome vs).
Proof.
  intros m lim root vs d. induction vs as [|v vs IH]; intros H; [reflexivity|]. inversion H; subst. cbn [lrun map].
  assert (E : lstep ord (bare m lim root, d) v = ((bare m lim root, d), unprimed_outcome v)).
  { destruct H2 as [->|[k [arg ->]]]; cbn [lstep]; [rewrite no_eqs_checkpoint_bare; reflexivity|].
    unfold new_solver. rewrite no_eqs_checkpoint_bare. destruct arg as [b|]; [destruct k as [| |[|]]; reflexivity|]. destruct k as [| |[|]]; reflexivity. }
  rewrite E, IH by assumption. reflexivity.
Qed.

Lemma checkpoint_idem : forall lim g fl e (d : cdir T), checkpoint lim (Some g) fl (Some e) (final (checkpoint lim (Some g) fl (Some e) d) d) = [].
Proof.
  intros lim g fl e [a b c f]. unfold checkpoint at 1. destruct (too_many lim (Some e)) eqn:L; [reflexivity|].
  unfold checkpoint. rewrite L. destruct b, c, f, fl; reflexivity.
Qed.
Lemma lcheckpoint_idem : forall m g fl e lim root (d : cdir T), let x := mkLs m (Some g) fl (Some e) lim root in
  lcheckpoint x (final (lcheckpoint x d) d) = [].
Proof. intros m g fl e lim [|] d; cbn; [apply checkpoint_idem|reflexivity]. Qed.

(** A primed object and the directory it was primed in. *)
Lemma prime_shape : forall (x y : lsystem T) d w, prime ord x d = (w, Ok y) ->
  exists m g fl e lim root, y = mkLs m (Some g) fl (Some e) lim root /\ final_checks e = Ok tt /\ lcheckpoint y (final w d) = [].
Proof.
  intros [m gen fargs eqs lim root] y d w E. unfold prime in E. cbn [ls_model ls_gen ls_fargs ls_eqs ls_lim ls_root] in E.
  destruct (match gen with Some g => Ok (g, fargs) | None => _ end) as [[g fl]|z]; [|discriminate].
  destruct (match eqs with Some e => Ok e | None => _ end) as [e|z]; [|discriminate].
  destruct (final_checks e) as [[]|] eqn:FC; cbn [bind] in E; [|discriminate]. injection E as <- <-.
  exists m, g, fl, e, lim, root. split; [reflexivity|]. split; [exact FC|]. rewrite final_app. apply lcheckpoint_idem.
Qed.

Lemma primed_run : forall (x y : lsystem T) d w vs, prime ord x d = (w, Ok y) -> Forall (fun v => idle v \/ v = LPrime) vs ->
  lrun ord (y, final w d) vs = ((y, final w d), map (fun _ => Ok tt) vs).
Proof.
  intros x y d w vs E. destruct (prime_shape x y d w E) as (m & g & fl & e & lim & root & -> & FC & CK). set (d1 := final w d) in *. clearbody d1. clear E.
  induction vs as [|v vs IH]; intros H; [reflexivity|]. inversion H; subst. cbn [lrun map].
  match goal with |- context [lstep ord (?y, d1) v] => set (yy := y) in * end.
  assert (ST : lstep ord (yy, d1) v = ((yy, d1), Ok tt)).
  { destruct H2 as [[->|[k [arg ->]]]| ->]; cbn [lstep].
    - rewrite CK. reflexivity.
    - unfold new_solver. rewrite CK. destruct arg as [b|]; [destruct k as [| |[|]]; reflexivity|]. destruct k as [| |[|]]; reflexivity.
    - unfold prime. cbn [yy ls_model ls_gen ls_fargs ls_eqs ls_lim ls_root]. change (mkLs m (Some g) fl (Some e) lim root) with yy. rewrite CK, FC. cbn [app final last bind].
      rewrite CK. reflexivity. }
  rewrite ST, IH by assumption. reflexivity.
Qed.

(** Priming an object with nothing but a model. *)
Lemma prime_bare : forall (m : model T) s lim root d, prime_system ord m = Ok s ->
  snd (prime ord (bare m lim root) d) = Ok (filled s lim root).
Proof.
  intros m s lim root d E. destruct (prime_parts ord m s E) as [sp [E1 [E2 [E3 [E4 SM]]]]]. unfold prime, bare. cbn [ls_model ls_gen ls_fargs ls_eqs ls_lim ls_root].
  rewrite E1. cbn [bind]. rewrite generalized_none, E2. cbn [bind]. rewrite E3. cbn [snd]. rewrite E4. cbn [bind]. unfold filled. rewrite SM. reflexivity.
Qed.
Lemma prime_bare_files : forall (m : model T) s lim d, prime_system ord m = Ok s -> c_gen d = None -> c_fargs d = None -> c_eqs d = None ->
  final (fst (prime ord (bare m lim true) d)) d =
  mkCdir (c_model d) (Some (Complete (s_gen s))) (Some (Complete (s_fargs s))) (if lim <? n_equations (s_eqs s) then None else Some (Complete (s_eqs s))).
Proof.
  intros m s lim [j a b c] E EA EB EC. cbn [c_gen c_fargs c_eqs c_model] in *. subst. destruct (prime_parts ord m s E) as [sp [E1 [E2 [E3 [E4 SM]]]]]. unfold prime, bare.
  cbn [ls_model ls_gen ls_fargs ls_eqs ls_lim ls_root]. rewrite E1. cbn [bind]. rewrite generalized_none, E2. cbn [bind]. rewrite E3. cbn [fst].
  unfold lcheckpoint. cbn [ls_model ls_gen ls_fargs ls_eqs ls_lim ls_root with_root]. rewrite final_app. unfold checkpoint. cbn [too_many].
  cbn [put_gen put_fargs put_eqs c_model c_gen c_fargs c_eqs dump final last app]. destruct (lim <? n_equations (s_eqs s)); reflexivity.
Qed.
End Objects.
