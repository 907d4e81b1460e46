(* Inverse matrices: a right inverse is a left inverse. *)
From Coq Require Import Reals Lra Lia List.
From Verif Require Import Base LinAlg.
Local Open Scope R_scope.

Lemma sumn_id n i x : (i < n)%nat -> sumn n (fun j => id_mx i j * x j) = x i.
Proof.
  intros Hi. rewrite (sumn_single n i (fun j => id_mx i j * x j) Hi).
  - unfold id_mx. rewrite Nat.eqb_refl. ring.
  - intros j Hj N. unfold id_mx. rewrite (proj2 (Nat.eqb_neq i j)) by congruence. ring.
Qed.

Lemma sumn_id_r n j x : (j < n)%nat -> sumn n (fun i => x i * id_mx i j) = x j.
Proof.
  intros Hj. rewrite (sumn_single n j (fun i => x i * id_mx i j) Hj).
  - unfold id_mx. rewrite Nat.eqb_refl. ring.
  - intros i Hi N. unfold id_mx. rewrite (proj2 (Nat.eqb_neq i j)) by congruence. ring.
Qed.

Definition right_inverse n (A B : Mx) : Prop :=
  forall i j, (i < n)%nat -> (j < n)%nat -> sumn n (fun k => A i k * B k j) = id_mx i j.

Lemma mul_assoc n (A B D : Mx) i j :
  sumn n (fun k => sumn n (fun l => A i l * B l k) * D k j) = sumn n (fun l => A i l * sumn n (fun k => B l k * D k j)).
Proof.
  transitivity (sumn n (fun k => sumn n (fun l => A i l * B l k * D k j))).
  - apply sumn_ext. intros k _. rewrite <- sumn_scal_r. apply sumn_ext. intros; ring.
  - rewrite sumn_swap. apply sumn_ext. intros l _. rewrite <- sumn_scal. apply sumn_ext. intros; ring.
Qed.

Lemma right_nonsingular n A B : right_inverse n A B -> nonsingular n B.
Proof.
  intros H x Hx i Hi.
  rewrite <- (sumn_id n i x Hi).
  transitivity (sumn n (fun j => sumn n (fun k => A i k * B k j) * x j)).
  - apply sumn_ext. intros j Hj. rewrite H; auto.
  - transitivity (sumn n (fun k => A i k * sumn n (fun j => B k j * x j))).
    + exact (mul_assoc n A B (fun j _ => x j) i 0%nat).
    + apply sumn_zero. intros k Hk. rewrite Hx by auto. ring.
Qed.

Lemma right_left n A B : right_inverse n A B -> right_inverse n B A.
Proof.
  intros H. destruct (lin_solve_mx_some n B id_mx (right_nonsingular n A B H)) as [Y HY].
  assert (S := lin_solve_mx_sound _ _ _ _ HY).
  intros i j Hi Hj. rewrite <- (S i j Hi). apply sumn_ext. intros k Hk. f_equal.
  (* A = A (B Y) = Y *)
  rewrite <- (sumn_id n k (fun k => Y k j) Hk).
  transitivity (sumn n (fun m => sumn n (fun l => A k l * B l m) * Y m j)).
  - rewrite (mul_assoc n A B Y k j). rewrite <- (sumn_id_r n j (fun l => A k l) Hj).
    apply sumn_ext. intros l Hl. rewrite S by auto. reflexivity.
  - apply sumn_ext. intros m Hm. rewrite H by auto. reflexivity.
Qed.

Lemma inv_right n A B : inv_mx n A = Some B -> right_inverse n A B.
Proof. intros E i j Hi Hj. exact (lin_solve_mx_sound n A id_mx B E i j Hi). Qed.
Lemma inv_left n A B : inv_mx n A = Some B -> right_inverse n B A.
Proof. intros E. apply right_left. apply inv_right. exact E. Qed.
Lemma inv_nonsingular n A B : inv_mx n A = Some B -> nonsingular n A.
Proof. intros E. exact (right_nonsingular n B A (inv_left n A B E)). Qed.
Lemma inv_some n A : nonsingular n A -> exists B, inv_mx n A = Some B.
Proof. apply lin_solve_mx_some. Qed.

Lemma inv_vec n A B x b : inv_mx n A = Some B ->
  (forall i, (i < n)%nat -> sumn n (fun j => A i j * x j) = b i) ->
  forall i, (i < n)%nat -> x i = sumn n (fun j => B i j * b j).
Proof.
  intros E H i Hi. rewrite <- (sumn_id n i x Hi).
  transitivity (sumn n (fun j => sumn n (fun k => B i k * A k j) * x j)).
  - apply sumn_ext. intros j Hj. rewrite (inv_left n A B E) by auto. reflexivity.
  - transitivity (sumn n (fun k => B i k * sumn n (fun j => A k j * x j))).
    + exact (mul_assoc n B A (fun j _ => x j) i 0%nat).
    + apply sumn_ext. intros k Hk. rewrite H by auto. reflexivity.
Qed.

(* The inverse of a symmetric matrix is symmetric. *)
Lemma inv_sym n A B : inv_mx n A = Some B -> (forall i j, (i < n)%nat -> (j < n)%nat -> A i j = A j i) ->
  forall i j, (i < n)%nat -> (j < n)%nat -> B i j = B j i.
Proof.
  intros E H i j Hi Hj.
  symmetry. apply (inv_vec n A B (fun k => B j k) (fun k => id_mx k j) E) in Hi as X.
  - rewrite X. exact (sumn_id_r n j (fun k => B i k) Hj).
  - intros k Hk. transitivity (sumn n (fun l => B j l * A l k)).
    + apply sumn_ext. intros l Hl. rewrite (H k l) by auto. ring.
    + rewrite (inv_left n A B E) by auto. unfold id_mx. rewrite Nat.eqb_sym. reflexivity.
Qed.
