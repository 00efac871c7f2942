(** Property theorems C79: timed blocks and log messages. *)
From Coq Require Import String Ascii ZArith QArith Qabs Rdefinitions Qreals List Bool Lia.
From Verif Require Import Base Model Space Equation System Ring Petsc Physics Timing Spec_timing HModel Props_Engine Props_Solve Props_Petsc.
From Verif Require Logger Timing_proofs Names_proofs Keys.
Import ListNotations.
Open Scope list_scope.

(** A timed block returns or raises what its body does; after the body, and also
    when it raises, exactly one message is written, which shows the time between
    the clock readings before and after the body, without a minus sign if the
    clock did not run backwards.  An exception of the stream
    replaces the outcome. *)
Theorem C79_timeit : forall (clock : nat -> Q) A msg (body : prog A) s r s',
  body (mkW (S (ticks s)) (lines s)) = (r, s') ->
  exists line v, timeit clock say msg body s = (r, mkW (S (ticks s')) (lines s' ++ [line])) /\
    stamped (clock (ticks s') - clock (ticks s)) msg line v /\
    ((clock (ticks s) <= clock (ticks s'))%Q -> (0 <= v)%Q).
Proof.
  intros clock A msg body s r s' H. unfold timeit, now, then_, say. rewrite H. cbn [ticks lines].
  destruct (Timing_proofs.stamp (clock (ticks s') - clock (ticks s)) msg) as [v V]. eexists. exists v. split; [reflexivity|]. split; [exact V|].
  intros L. apply (Timing_proofs.stamped_sign _ _ _ _ V). unfold Qminus. rewrite <- Qle_minus_iff. exact L.
Qed.
Print Assumptions C79_timeit.

Theorem C79_stream : forall (clock : nat -> Q) A stream msg (body : prog A) s r s' e s'',
  body (mkW (S (ticks s)) (lines s)) = (r, s') ->
  (forall text, stream text (mkW (S (ticks s')) (lines s')) = (Err e, s'')) ->
  timeit clock stream msg body s = (Err e, s'').
Proof. intros clock A stream msg body s r s' e s'' H S. unfold timeit, now, then_. rewrite H, S. reflexivity. Qed.
Print Assumptions C79_stream.

(** The message: within half a hundredth of a second below ten seconds, within
    three percent from there on. *)
Theorem C79_message : forall dt msg,
  adjust_log_msg_for_time msg None = msg /\
  exists v, stamped dt msg (adjust_log_msg_for_time msg (Some dt)) v /\
    ((dt < 10)%Q -> (Qabs (dt - v) <= 1 # 200)%Q) /\ ((10 <= dt)%Q -> (Qabs (dt - v) <= (3 # 100) * dt)%Q).
Proof.
  intros dt msg. split; [reflexivity|]. destruct (Timing_proofs.stamp dt msg) as [v V]. exists v. split; [exact V|].
  exact (Timing_proofs.stamped_accuracy _ _ _ _ V).
Qed.
Print Assumptions C79_message.

(** The rational model of [_elapsed_time_str] agrees with the real one of C43. *)
Theorem C79_units : forall dt, elapsed_time_str (Q2R dt) = (Q2R (fst (elapsed_time dt)), snd (elapsed_time dt)).
Proof. exact Timing_proofs.elapsed_real. Qed.
Print Assumptions C79_units.

(** Building a system with timed blocks gives the same system or exception,
    whatever the clock; one message per stage up to the one that failed, in
    order, each with the time of its stage. *)
Definition stages_run {T} (ord : string -> list vec -> list vec) (m : model T) : nat :=
  match generate_space m with
  | Err _ => 1
  | Ok space =>
    match generalized ord m space with
    | Err _ => 2
    | Ok (gen, fl) => match full_equations fl gen with Err _ => 3 | Ok _ => 4 end
    end
  end.
Theorem C79_prime : forall T (clock : nat -> Q) ord (m : model T) s,
  exists ls, prime_timed clock ord m s = (prime_system ord m, mkW (ticks s + 2 * stages_run ord m) (lines s ++ ls)) /\
    List.length ls = stages_run ord m /\
    (forall i, (i < stages_run ord m)%nat -> exists v,
       stamped (clock (ticks s + 2 * i + 1)%nat - clock (ticks s + 2 * i)%nat) (nth i stages ""%string) (nth i ls ""%string) v).
Proof.
  intros T clock ord m s. unfold prime_timed, prime_system, stages_run, timeit, then_, pure, now, say, bind.
  assert (G : forall t t' t'' msg, t' = t'' -> t' = S t -> exists v, stamped (clock t' - clock t) msg (adjust_log_msg_for_time msg (Some (clock t'' - clock t)%Q)) v).
  { intros t t' t'' msg <- _. apply Timing_proofs.stamp. }
  assert (W : forall A (r : result A) a b c d, a = c -> b = d -> (r, mkW a b) = (r, mkW c d)) by (intros; congruence).
  destruct (generate_space m) as [space|e]; cbn [ticks lines fst snd].
  2:{ eexists. split; [apply W; [lia|reflexivity]|]. split; [reflexivity|].
      intros [|i] I; [|lia]. replace (ticks s + 2 * 0)%nat with (ticks s) by lia. apply G; lia. }
  destruct (generalized ord m space) as [[gen fl]|e]; cbn [ticks lines fst snd].
  2:{ eexists. split; [apply W; [lia|rewrite <- app_assoc; reflexivity]|]. split; [reflexivity|].
      intros [|[|i]] I; [replace (ticks s + 2 * 0)%nat with (ticks s) by lia|replace (ticks s + 2 * 1)%nat with (S (S (ticks s))) by lia|lia]; apply G; lia. }
  destruct (full_equations fl gen) as [eqs|e]; cbn [ticks lines fst snd].
  2:{ eexists. split; [apply W; [lia|rewrite <- !app_assoc; reflexivity]|]. split; [reflexivity|].
      intros [|[|[|i]]] I; [replace (ticks s + 2 * 0)%nat with (ticks s) by lia|replace (ticks s + 2 * 1)%nat with (S (S (ticks s))) by lia|
        replace (ticks s + 2 * 2)%nat with (S (S (S (S (ticks s))))) by lia|lia]; apply G; lia. }
  destruct (final_checks eqs) as [u|e]; cbn [ticks lines fst snd];
    (eexists; split; [apply W; [lia|rewrite <- !app_assoc; reflexivity]|]; split; [reflexivity|];
      intros [|[|[|[|i]]]] I; [replace (ticks s + 2 * 0)%nat with (ticks s) by lia|replace (ticks s + 2 * 1)%nat with (S (S (ticks s))) by lia|
        replace (ticks s + 2 * 2)%nat with (S (S (S (S (ticks s))))) by lia|replace (ticks s + 2 * 3)%nat with (S (S (S (S (S (S (ticks s))))))) by lia|lia]; apply G; lia).
Qed.
Print Assumptions C79_prime.

(** Messages with [elapsed=dt]: those with a fixed text never raise. *)
Theorem C79_fixed : forall st shown, assembled st shown = Ok tt /\ contexts st shown = Ok tt.
Proof.
  intros st shown. unfold assembled, contexts, debug_elapsed.
  rewrite !Timing_proofs.format_plain by (cbn; repeat split; discriminate). destruct (taken st Logger.Debug); split; reflexivity.
Qed.
Print Assumptions C79_fixed.

(** Loading a matrix from a directory is not affected by its message if the name
    of the directory has no braces or no handler takes debug messages. *)
Theorem C79_disk : forall (K : cring) T st shown name (fmt : T -> string) (g0_at : T * T -> K) eta choose d p,
  plain name \/ taken st Logger.Debug = false ->
  from_disk_logged st shown name fmt g0_at eta choose d p = from_disk fmt g0_at eta choose d p.
Proof.
  intros K T st shown name fmt g0_at eta choose d p H. unfold from_disk_logged.
  assert (D : debug_elapsed st shown (append "PETSc matrix assembled, built from disk at: " name) = Ok tt).
  { unfold debug_elapsed. destruct (taken st Logger.Debug); [|reflexivity]. destruct H as [H|H]; [|discriminate].
    rewrite Timing_proofs.format_plain; [reflexivity|]. apply Timing_proofs.plain_app; [cbn; repeat split; discriminate|exact H]. }
  rewrite D. destruct (from_disk _ _ _ _ _ _); reflexivity.
Qed.
Print Assumptions C79_disk.

(** With the configuration the package sets when it is imported, on every rank, a
    directory whose name has a word in braces makes every load fail, although the
    message is not shown. *)
Theorem C79_braces : forall (K : cring) T rank shown a word b (fmt : T -> string) (g0_at : T * T -> K) eta choose d p r,
  plain a -> bare word -> word <> "elapsed"%string ->
  from_disk fmt g0_at eta choose d p = Ok r ->
  from_disk_logged (Logger.imported rank) shown (a ++ "{" ++ word ++ "}" ++ b) fmt g0_at eta choose d p = Err (if numeral word then IndexError else KeyError) /\
  ~ In Logger.Stdout (fst (Logger.log (Logger.imported rank) Logger.Debug)) /\ ~ In Logger.Stderr (fst (Logger.log (Logger.imported rank) Logger.Debug)).
Proof.
  intros K T rank shown a word b fmt g0_at eta choose d p r A B N E. split.
  - unfold from_disk_logged. rewrite E. unfold debug_elapsed.
    assert (X : taken (Logger.imported rank) Logger.Debug = true) by (unfold taken, Logger.imported, Logger.configure_loggers; destruct (Nat.eqb rank 0); reflexivity).
    rewrite X. cbn [bind].
    assert (F : forall s, str_format shown (S (String.length (append a s))) (append a s) = str_format shown (String.length a + S (String.length s)) (append a s)).
    { intros s. rewrite Names_proofs.length_app. f_equal. lia. }
    change (append "PETSc matrix assembled, built from disk at: " (append a (append "{" (append word (append "}" b)))))
      with (append "PETSc matrix assembled, built from disk at: " (append a (String "{" (append word (String "}" b))))).
    remember (append "PETSc matrix assembled, built from disk at: " a) as pre eqn:EP.
    assert (Q : plain pre) by (subst pre; apply Timing_proofs.plain_app; [cbn; repeat split; discriminate|exact A]).
    replace (append "PETSc matrix assembled, built from disk at: " (append a (String "{" (append word (String "}" b)))))
      with (append pre (String "{" (append word (String "}" b)))) by (subst pre; reflexivity).
    rewrite Names_proofs.length_app.
    replace (S (String.length pre + String.length (String "{" (append word (String "}" b))))) with (String.length pre + S (String.length (String "{" (append word (String "}" b)))))%nat by lia.
    rewrite (Timing_proofs.format_prefix shown pre _ _ (if numeral word then IndexError else KeyError) Q); [reflexivity|].
    apply Timing_proofs.format_field; assumption.
  - unfold Logger.imported, Logger.configure_loggers. destruct (Nat.eqb rank 0); cbn; split; intros H; exact H.
Qed.
Print Assumptions C79_braces.

(** str.format follows its grammar, for every message without nested fields: the
    parts give their texts, two equal braces one, up to the first part that
    raises; a brace without partner raises ValueError. *)
Theorem C79_format : forall shown ps r, Forall proper ps -> formats shown ps r ->
  (forall n, (String.length (text ps) < n)%nat -> str_format shown n (text ps) = r) /\
  (forall a t n, r = Ok a -> (String.length (text ps ++ t) < n)%nat ->
     (exists u, t = String "}" u /\ forall u', u <> String "}" u') \/ (exists u, t = String "{" u /\ plain u) ->
     str_format shown n (text ps ++ t) = Err ValueError).
Proof.
  intros shown ps r P F. split.
  - intros n L. destruct (Timing_proofs.format_parts shown ps r F P n ""%string) as [n' [L' E]]; [rewrite Names_proofs.length_app; cbn [String.length]; lia|].
    rewrite Timing_proofs.sapp_nil in E. rewrite E. destruct n' as [|n']; [cbn in L'; lia|]. destruct r as [a|e]; [|reflexivity]. cbn [bind str_format]. rewrite Timing_proofs.sapp_nil. reflexivity.
  - intros a t n -> L H. destruct (Timing_proofs.format_parts shown ps _ F P n t L) as [n' [L' E]]. rewrite E. cbn [bind].
    destruct n' as [|n']; [lia|]. destruct H as [[u [-> H]]|[u [-> H]]].
    + rewrite Timing_proofs.format_single by exact H. reflexivity.
    + rewrite Timing_proofs.format_brace by (intros r' ->; destruct H as [H _]; contradiction).
      pose proof (Timing_proofs.split_none u H) as X. destruct (split_at (Ascii.eqb "}") u) as [f [o|]]; [discriminate X|reflexivity].
Qed.
Print Assumptions C79_format.

(** A message is formatted if and only if the logger is enabled and some handler
    takes debug messages: a stream, whatever its filter, or a callback of that
    level.  Otherwise loading a matrix is never affected; if it is formatted, the
    exception of a name that does not format ends it. *)
Theorem C79_silent : forall (K : cring) T st shown name (fmt : T -> string) (g0_at : T * T -> K) eta choose d p,
  (Logger.enabled st = false \/ (forall h, In h (Logger.handlers st) -> h = Logger.Exit \/ exists e l, h = Logger.Callback e l /\ (Logger.severity Logger.Debug < Logger.severity l)%nat) ->
    from_disk_logged st shown name fmt g0_at eta choose d p = from_disk fmt g0_at eta choose d p) /\
  (forall ps e r, Logger.enabled st = true -> (exists o f, In (Logger.Stream o f) (Logger.handlers st)) -> Forall proper ps -> name = text ps -> formats shown ps (Err e) ->
    from_disk fmt g0_at eta choose d p = Ok r -> from_disk_logged st shown name fmt g0_at eta choose d p = Err e).
Proof.
  intros K T st shown name fmt g0_at eta choose d p. split.
  - intros H. apply C79_disk. right. unfold taken. destruct H as [-> | H]; [reflexivity|]. destruct (Logger.enabled st); [|reflexivity].
    cbn [andb]. apply Bool.not_true_is_false. intros X. apply existsb_exists in X. destruct X as [h [Hh X]]. destruct (H h Hh) as [-> | [o [l [-> L]]]]; [discriminate X|]. apply Nat.leb_le in X. lia.
  - intros ps e r En [o [f Hs]] P -> F E. unfold from_disk_logged. rewrite E. cbn [bind]. unfold debug_elapsed.
    assert (X : taken st Logger.Debug = true).
    { unfold taken. rewrite En. cbn [andb]. apply existsb_exists. exists (Logger.Stream o f). split; [exact Hs|reflexivity]. }
    rewrite X. rewrite Names_proofs.length_app.
    replace (S (String.length "PETSc matrix assembled, built from disk at: " + String.length (text ps))) with (String.length "PETSc matrix assembled, built from disk at: " + S (String.length (text ps)))%nat by lia.
    rewrite (Timing_proofs.format_prefix shown _ (text ps) _ e); [reflexivity|cbn; repeat split; discriminate|].
    apply (proj1 (C79_format shown ps (Err e) P F)). lia.
Qed.
Print Assumptions C79_silent.

(** The timing of a message can change what a program computes. *)
Theorem C79_disk_refuted : exists (K : cring) st shown name (g0_at : Q * Q -> K) eta choose d p r,
  from_disk Keys.fmt10 g0_at eta choose d p = Ok r /\
  from_disk_logged st shown name Keys.fmt10 g0_at eta choose d p = Err KeyError.
Proof.
  pose (d := [("matr_at_k_0.0000000000_w_7.0000000000_e_0.0050000000.pkl"%string, Matrix [(0, 0, Props_Solve.q 1 1)])]%nat : mdir Qcf).
  exists Qcf, (Logger.imported 0), (fun s => Ok s), "runs/{t}"%string, (fun _ => Props_Solve.q 1 1), w_eta, (fun l : list string => hd ""%string l), d, ((0 # 1)%Q, (7 # 1)%Q).
  eexists. split; [vm_compute; reflexivity|]. eapply (C79_braces Qcf Q 0 (fun s => Ok s) "runs/" "t" "" Keys.fmt10 _ w_eta _ d _ _).
  - cbn. repeat split; discriminate.
  - cbn. split; [|exact I]. intros H. repeat (destruct H as [H|H]; [discriminate H|]). exact H.
  - discriminate.
  - vm_compute. reflexivity.
Qed.
Print Assumptions C79_disk_refuted.

(** A body that raises after two and a half minutes; a system; a fixed name. *)
Example C79_nonvacuous :
  timeit (fun n => nth n [10; 160]%Q 0%Q) say "Work" (pure (Err ValueError : result nat)) (mkW 0 ["start"%string]) =
    (Err ValueError, mkW 2 ["start"; "[2.50 m] Work"]%string) /\
  adjust_log_msg_for_time "x" (Some (9999 # 1000)%Q) = "[10.00 s] x"%string /\
  adjust_log_msg_for_time "x" (Some 7200%Q) = "[2.00 h] x"%string /\
  lines (snd (prime_timed (fun n => inject_Z (Z.of_nat n)) id_ord h_model (mkW 0 []))) =
    ["[1.00 s] Legal configurations generated"; "[1.00 s] Generalized equations initialized"; "[1.00 s] Equations initialized"; "[1.00 s] Final checks"]%string /\
  plain "runs/t" /\ taken (Logger.mkL [Logger.Exit] true) Logger.Debug = false.
Proof. split; [vm_compute; reflexivity|]. split; [vm_compute; reflexivity|]. split; [vm_compute; reflexivity|]. split; [vm_compute; reflexivity|]. split; [cbn; repeat split; discriminate|reflexivity]. Qed.

(** "run}}{elapsed:x}{19}": a brace, a field that names the argument, a number. *)
Example C79_format_nonvacuous : let ps := [Letter "r"; Closing; Named "elapsed" ":x"; Named "19" "!r"; Named "t" ""]%char in
  Forall proper ps /\ text ps = "r}}{elapsed:x}{19!r}{t}"%string /\ formats (fun s => Ok s) ps (Err IndexError) /\
  formats (fun s => Ok s) (firstn 3 ps) (Ok "r}:x"%string) /\ Logger.enabled (Logger.activate false (Logger.imported 0)) = false /\
  (forall h, In h (Logger.handlers (Logger.mkL [Logger.Exit; Logger.Callback Logger.DummyError Logger.Error] true)) -> h = Logger.Exit \/ exists e l, h = Logger.Callback e l /\ (Logger.severity Logger.Debug < Logger.severity l)%nat).
Proof.
  intros ps. split; [|split; [reflexivity|split; [|split; [|split; [reflexivity|]]]]].
  - assert (NB : forall c l, existsb (Ascii.eqb c) l = false -> ~ In c l).
    { intros c l E H. assert (X : existsb (Ascii.eqb c) l = true) by (apply existsb_exists; exists c; split; [exact H|apply Ascii.eqb_refl]). congruence. }
    unfold ps. constructor; [split; discriminate|]. constructor; [exact I|].
    constructor; [split; [cbn [bare]; repeat split; apply NB; reflexivity|split; [cbn [plain]; repeat split; discriminate|right; exists ":"%char, "x"%string; split; [reflexivity|simpl; tauto]]]|].
    constructor; [split; [cbn [bare]; repeat split; apply NB; reflexivity|split; [cbn [plain]; repeat split; discriminate|right; exists "!"%char, "r"%string; split; [reflexivity|simpl; tauto]]]|].
    constructor; [split; [cbn [bare]; repeat split; apply NB; reflexivity|split; [exact I|left; reflexivity]]|]. constructor.
  - eapply formats_later; [constructor|]. eapply formats_later; [constructor|]. eapply formats_later; [constructor|]. apply formats_err. apply gives_number.
    intros c [<- |[<- |[]]]; simpl; tauto.
  - change (Ok "r}:x"%string) with (Ok ("r" ++ ("}" ++ (":x" ++ ""))))%string. repeat (apply formats_ok; [constructor|]). constructor.
  - intros h [<- |[<- |[]]]; [left; reflexivity|right]. do 2 eexists. split; [reflexivity|]. vm_compute. lia.
Qed.
