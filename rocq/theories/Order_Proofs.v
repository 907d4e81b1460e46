(* Order of the first values of the g-functions of the three boundary conditions. *)
From Coq Require Import Reals Lra Lia List Psatz.
From Verif Require Import Base LinAlg Solve_Model Solve_Spec Refine_Proofs.
Import ListNotations.
Local Open Scope R_scope.

(* Sums over two indices *)
Definition form (n : nat) (B : nat -> nat -> R) (u v : nat -> R) : R := sumn n (fun i => u i * sumn n (fun j => B i j * v j)).

Lemma form_ext n B u u' v v' : (forall i, (i < n)%nat -> u i = u' i) -> (forall i, (i < n)%nat -> v i = v' i) -> form n B u v = form n B u' v'.
Proof.
  intros A A'. unfold form. apply sumn_ext. intros i Hi. rewrite (A i Hi). f_equal. apply sumn_ext. intros j Hj. rewrite (A' j Hj). reflexivity.
Qed.
Lemma form_plus_r n B u v w : form n B u (fun i => v i + w i) = form n B u v + form n B u w.
Proof.
  unfold form. rewrite <- sumn_plus. apply sumn_ext. intros i Hi.
  rewrite (sumn_ext n (fun j => B i j * (v j + w j)) (fun j => B i j * v j + B i j * w j)) by (intros; ring). rewrite sumn_plus. ring.
Qed.
Lemma form_plus_l n B u v w : form n B (fun i => u i + v i) w = form n B u w + form n B v w.
Proof. unfold form. rewrite <- sumn_plus. apply sumn_ext. intros; ring. Qed.
Lemma form_scal_r n B c u v : form n B u (fun i => c * v i) = c * form n B u v.
Proof.
  unfold form. rewrite <- sumn_scal. apply sumn_ext. intros i Hi.
  rewrite (sumn_ext n (fun j => B i j * (c * v j)) (fun j => c * (B i j * v j))) by (intros; ring). rewrite sumn_scal. ring.
Qed.
Lemma form_scal_l n B c u v : form n B (fun i => c * u i) v = c * form n B u v.
Proof. unfold form. rewrite <- sumn_scal. apply sumn_ext. intros; ring. Qed.
Lemma form_sym n B u v : (forall i j, (i < n)%nat -> (j < n)%nat -> B i j = B j i) -> form n B u v = form n B v u.
Proof.
  intros S. unfold form.
  rewrite (sumn_ext n (fun i => u i * sumn n (fun j => B i j * v j)) (fun i => sumn n (fun j => u i * B i j * v j)))
    by (intros; rewrite <- sumn_scal; apply sumn_ext; intros; ring).
  rewrite sumn_swap. apply sumn_ext. intros j Hj. rewrite <- sumn_scal. apply sumn_ext. intros i Hi. rewrite (S i j Hi Hj). ring.
Qed.

Section Order.
Variables (n : nat) (L : nat -> R) (A B : nat -> nat -> R) (K tin : R) (x : nat -> R).
Hypothesis Kp : 0 < K.
Hypothesis Lp : 0 < sumn n L.
Hypothesis Df : definite n L A.
Hypothesis Rc : forall i j, (i < n)%nat -> (j < n)%nat -> L i * A i j = L j * A j i.
Hypothesis Sy : forall i j, (i < n)%nat -> (j < n)%nat -> B i j = B j i.
Hypothesis Ps : forall u, 0 <= form n B u u.
Let one : nat -> R := fun _ => 1.
Let T (i : nat) : R := sumn n (fun j => A i j * x j).
Let u (i : nat) : R := tin - T i.
Hypothesis Eq : forall i, (i < n)%nat -> K * L i * x i = sumn n (fun j => B i j * u j).
Hypothesis No : sumn n (fun i => L i * x i) = sumn n L.
Local Notation H := (sumn n L).
Local Notation G := (form n B one one).

Lemma heat_form v : form n B v u = K * sumn n (fun i => v i * (L i * x i)).
Proof.
  unfold form. rewrite <- sumn_scal. apply sumn_ext. intros i Hi. rewrite <- (Eq i Hi). ring.
Qed.

Lemma inlet_energy : K * tin * H = K * sumn n (fun i => L i * x i * T i) + form n B u u.
Proof.
  rewrite heat_form.
  rewrite (sumn_ext n (fun i => u i * (L i * x i)) (fun i => tin * (L i * x i) - L i * x i * T i)) by (intros; unfold u; ring).
  rewrite sumn_minus, sumn_scal, No. ring.
Qed.

(* The least energy of all loads with the same total *)
Lemma above_uniform y g : 0 < G -> (forall i, (i < n)%nat -> sumn n (fun j => A i j * y j) = g) -> sumn n (fun i => L i * y i) = H ->
  g <= tin - K * H / G.
Proof.
  intros Gp Y Ny. assert (G0 : G <> 0) by (apply Rgt_not_eq; exact Gp).
  assert (E : g * H <= sumn n (fun i => L i * x i * T i)).
  { rewrite <- Ny. apply (least_energy n L A y x g Df Rc Y). rewrite Ny, No. reflexivity. }
  assert (V : (K * H) ^ 2 / G <= form n B u u).
  { set (s := K * H / G). pose proof (Ps (fun i => u i + - s * one i)) as Q.
    rewrite form_plus_r, !form_plus_l, !form_scal_r, !form_scal_l in Q.
    rewrite (form_sym n B u one Sy) in Q. rewrite (heat_form one) in Q.
    rewrite (sumn_ext n (fun i => one i * (L i * x i)) (fun i => L i * x i)) in Q by (intros; unfold one; ring). rewrite No in Q.
    assert (X : (K * H) ^ 2 / G = s * (K * H)) by (unfold s; field; exact G0).
    assert (Z : s * G = K * H) by (unfold s; field; exact G0). rewrite X.
    assert (Z2 : s * (s * G) = s * (K * H)) by (rewrite Z; reflexivity). lra. }
  pose proof inlet_energy as I.
  apply (Rmult_le_reg_r (K * H)); [apply Rmult_lt_0_compat; auto|].
  replace ((tin - K * H / G) * (K * H)) with (K * tin * H - (K * H) ^ 2 / G) by (field; exact G0).
  rewrite I. assert (K * (g * H) <= K * sumn n (fun i => L i * x i * T i)) by (apply Rmult_le_compat_l; lra). lra.
Qed.

(* Evenly fed: at a uniform wall temperature the heat is the same over every length *)
Lemma below_even beta : 0 < beta -> (forall i, (i < n)%nat -> sumn n (fun j => B i j) = beta * L i) ->
  tin - K * H / G <= sumn n (fun i => L i * sumn n (fun j => A i j)) / H.
Proof.
  intros Bp Ev.
  assert (EG : G = beta * H).
  { unfold form. rewrite <- sumn_scal. apply sumn_ext. intros i Hi. rewrite <- (Ev i Hi). unfold one. rewrite Rmult_1_l. apply sumn_ext. intros; ring. }
  set (d := fun i => x i - 1). set (w := fun i => u i + - (K / beta) * one i).
  assert (Bw : forall v, form n B v w = K * sumn n (fun i => v i * (L i * d i))).
  { intros v. unfold w. rewrite form_plus_r, form_scal_r, heat_form. unfold form.
    rewrite (sumn_ext n (fun i => v i * sumn n (fun j => B i j * one j)) (fun i => beta * (v i * L i))).
    2:{ intros i Hi. rewrite (sumn_ext n (fun j => B i j * one j) (fun j => B i j)) by (intros; unfold one; ring). rewrite (Ev i Hi). ring. }
    rewrite sumn_scal.
    rewrite (sumn_ext n (fun i => v i * (L i * d i)) (fun i => v i * (L i * x i) - v i * L i)) by (intros; unfold d; ring).
    rewrite sumn_minus. field. lra. }
  assert (D0 : sumn n (fun i => L i * d i) = 0).
  { rewrite (sumn_ext n _ (fun i => L i * x i - L i)) by (intros; unfold d; ring). rewrite sumn_minus, No. ring. }
  assert (B1 : form n B one w = 0).
  { rewrite Bw. rewrite (sumn_ext n _ (fun i => L i * d i)) by (intros; unfold one; ring). rewrite D0. ring. }
  assert (Ed : 0 <= sumn n (fun i => L i * d i * sumn n (fun j => A i j * d j))).
  { destruct (Rle_lt_dec 0 (sumn n (fun i => L i * d i * sumn n (fun j => A i j * d j)))) as [Q|Q]; [exact Q|exfalso].
    assert (Z : forall i, (i < n)%nat -> d i = 0).
    { intros i Hi. destruct (Req_dec (d i) 0) as [Z|Z]; [exact Z|exfalso].
      pose proof (Df d (ex_intro _ i (conj Hi Z))). lra. }
    rewrite (sumn_ext n _ (fun _ => 0 * 0)) in Q by (intros i Hi; rewrite (Z i Hi); ring). rewrite sumn_scal in Q. lra. }
  (* energies *)
  set (C := fun i j => L i * A i j).
  assert (SC : forall i j, (i < n)%nat -> (j < n)%nat -> C i j = C j i) by (intros; apply Rc; auto).
  assert (EC : forall p q, form n C p q = sumn n (fun i => L i * p i * sumn n (fun j => A i j * q j))).
  { intros p q. unfold form. apply sumn_ext. intros i Hi. unfold C.
    rewrite (sumn_ext n (fun j => L i * A i j * q j) (fun j => L i * (A i j * q j))) by (intros; ring). rewrite sumn_scal. ring. }
  assert (E1 : form n C one one = form n C x x - 2 * form n C d x + form n C d d).
  { rewrite (form_ext n C one (fun i => x i + -1 * d i) one (fun i => x i + -1 * d i)) by (intros; unfold d, one; ring).
    rewrite form_plus_r, !form_plus_l, !form_scal_r, !form_scal_l. rewrite (form_sym n C x d SC). ring. }
  assert (Edx : K * form n C d x = - form n B w w).
  { rewrite EC. change (K * sumn n (fun i => L i * d i * T i) = - form n B w w).
    rewrite Bw. rewrite (sumn_ext n (fun i => L i * d i * T i) (fun i => (tin - K / beta) * (L i * d i) - w i * (L i * d i)))
      by (intros; unfold w, u, one; ring).
    rewrite sumn_minus, sumn_scal, D0. ring. }
  assert (Eu : form n B u u = form n B w w + (K / beta) ^ 2 * G).
  { rewrite (form_ext n B u (fun i => w i + K / beta * one i) u (fun i => w i + K / beta * one i)) by (intros; unfold w; ring).
    rewrite form_plus_r, !form_plus_l, !form_scal_r, !form_scal_l. rewrite (form_sym n B w one Sy), B1. ring. }
  pose proof inlet_energy as I. rewrite Eu in I.
  change (sumn n (fun i => L i * x i * T i)) with (sumn n (fun i => L i * x i * sumn n (fun j => A i j * x j))) in I. rewrite <- EC in I.
  assert (E1' : sumn n (fun i => L i * sumn n (fun j => A i j)) = form n C one one).
  { rewrite EC. apply sumn_ext. intros i Hi. unfold one. rewrite Rmult_1_r. f_equal. apply sumn_ext. intros; ring. }
  rewrite E1', E1. rewrite <- EC in Ed. pose proof (Ps w) as Pw.
  apply (Rmult_le_reg_r (K * H)); [apply Rmult_lt_0_compat; auto|].
  replace ((tin - K * H / G) * (K * H)) with (K * tin * H - (K * H) ^ 2 / G) by (field; rewrite EG; apply Rgt_not_eq; apply Rmult_lt_0_compat; lra).
  replace ((form n C x x - 2 * form n C d x + form n C d d) / H * (K * H)) with (K * form n C x x - 2 * (K * form n C d x) + K * form n C d d) by (field; lra).
  rewrite Edx, I. replace ((K * H) ^ 2 / G) with ((K / beta) ^ 2 * G) by (rewrite EG; field; lra).
  assert (0 <= K * form n C d d) by (apply Rmult_le_pos; lra). lra.
Qed.
End Order.
