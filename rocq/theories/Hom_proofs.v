(** Lemmas for C83. *)
From Coq Require Import String ZArith List Bool Lia Permutation.
From Verif Require Import Base NdArray Config Spec Model Space Render Term Equation System Spec_engine Ring Coef Spec_eom Solvers Spec_solve Spec_hom.
Import ListNotations.
Open Scope list_scope.

Section Hom.
Context {T : Type} {K K' : cring}.
Variable h : K -> K'.
Hypothesis H : ring_map h.
Add Ring KRh : (klaws K). Add Ring KRh' : (klaws K').

Lemma hom_opp : forall x, h (kopp x) = kopp (h x).
Proof.
  intros x. assert (E : kadd (h (kopp x)) (h x) = k0) by (rewrite <- (rm_add h H); replace (kadd (kopp x) x) with (k0 : K) by ring; apply (rm_0 h H)).
  transitivity (kadd (kadd (h (kopp x)) (h x)) (kopp (h x))); [ring|]. rewrite E. ring.
Qed.
Lemma hom_pos : forall p, h (Pos.iter (kadd k1) k0 p) = Pos.iter (kadd k1) k0 p.
Proof.
  intros p. rewrite !Pos2Nat.inj_iter. induction (Pos.to_nat p) as [|n IH]; [apply (rm_0 h H)|]. cbn [nat_rect Nat.iter] in *. 
  rewrite (rm_add h H), (rm_1 h H), IH. reflexivity.
Qed.
Lemma hom_kz : forall z, h (kz z) = kz z.
Proof. intros [|p|p]; cbn [kz]; [apply (rm_0 h H)|apply hom_pos|rewrite hom_opp, hom_pos; reflexivity]. Qed.
Lemma hom_sum : forall l, h (ksum l) = ksum (map h l).
Proof. induction l as [|x l IH]; [apply (rm_0 h H)|]. cbn [map]. unfold ksum in *. cbn [fold_right]. rewrite (rm_add h H), IH. reflexivity. Qed.

Variables (e : env T K) (e' : env T K').
Hypothesis Ca : carried h e e'.

Lemma hom_const : forall c, const_of e' c = h (const_of e c).
Proof. intros [[g n]|]; cbn [const_of]; [rewrite (rm_mul h H), hom_kz, (ca_ev _ _ _ Ca); reflexivity|symmetry; apply (rm_1 h H)]. Qed.
Lemma hom_coefficient : forall t, coefficient e' t = h (coefficient e t).
Proof.
  intros t. unfold coefficient. destruct (t_kind t).
  all: try (symmetry; apply (rm_1 h H)).
  all: try (destruct (t_g t); [|symmetry; apply (rm_0 h H)]).
  all: rewrite !(rm_mul h H), hom_const, (ca_ph _ _ _ Ca), ?(ca_g0 _ _ _ Ca), ?(ca_G0 _ _ _ Ca); reflexivity.
Qed.
Lemma hom_row : forall u q, row e' (fun p => h (u p)) q = h (row e u q).
Proof.
  intros u q. unfold row. rewrite (rm_add h H), hom_sum, map_map. f_equal. f_equal. apply map_ext. intros t. rewrite (rm_mul h H), hom_coefficient. reflexivity.
Qed.
Lemma hom_bias : forall q, bias e' q = h (bias e q).
Proof. intros q. unfold bias. destruct (e_green q); [apply (ca_G0 _ _ _ Ca)|symmetry; apply (rm_0 h H)]. Qed.
Lemma hom_proper : forall u, proper u -> proper (fun p => h (u p)).
Proof. intros u P a a' d V V' F F'. f_equal. apply P; assumption. Qed.
Lemma hom_solution : forall s u, solution e s u -> solution e' s (fun p => h (u p)).
Proof. intros s u S q Hq. unfold holds. rewrite hom_row, hom_bias. f_equal. exact (S q Hq). Qed.
End Hom.
