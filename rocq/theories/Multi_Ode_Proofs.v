(** Modes of the differential equations. *)
From Coq Require Import Psatz.
From Coquelicot Require Import Coquelicot.
From Verif Require Import Base LinAlg LinInv Bore_Model Pipe_Proofs Multi_Model Multi_Spec.
Local Open Scope R_scope.

Lemma re_csum n f : Re (csum n f) = sumn n (fun i => Re (f i)).
Proof. reflexivity. Qed.
Lemma im_csum n f : Im (csum n f) = sumn n (fun i => Im (f i)).
Proof. reflexivity. Qed.
Lemma re_mult a b : Re (Cmult a b) = Re a * Re b - Im a * Im b.
Proof. reflexivity. Qed.
Lemma im_mult a b : Im (Cmult a b) = Re a * Im b + Im a * Re b.
Proof. reflexivity. Qed.
Lemma c_ext (a b : Complex.C) : Re a = Re b -> Im a = Im b -> a = b.
Proof. destruct a, b. cbn. congruence. Qed.

Lemma csum_ext n f g : (forall i, (i < n)%nat -> f i = g i) -> csum n f = csum n g.
Proof. intros H. unfold csum. f_equal; apply sumn_ext; intros; rewrite H; auto. Qed.
Lemma csum_mult_r n f c : Cmult (csum n f) c = csum n (fun i => Cmult (f i) c).
Proof.
  apply c_ext; rewrite ?re_mult, ?im_mult, ?re_csum, ?im_csum; rewrite <- !sumn_scal_r.
  - rewrite <- sumn_minus. apply sumn_ext. intros. rewrite re_mult. auto.
  - rewrite <- sumn_plus. apply sumn_ext. intros. rewrite im_mult. auto.
Qed.
Lemma csum_mult_l n f c : Cmult c (csum n f) = csum n (fun i => Cmult c (f i)).
Proof. rewrite Cmult_comm, csum_mult_r. apply csum_ext. intros. apply Cmult_comm. Qed.
Lemma csum_swap n m f : csum n (fun i => csum m (f i)) = csum m (fun j => csum n (fun i => f i j)).
Proof. unfold csum. cbn [Re Im fst snd]. f_equal; apply sumn_swap. Qed.

Section Modes.
  Variables (N : nat) (A : Mx) (s : spectrum).
  Hypothesis (D : decomposes N A s).

  (** A solution: each mode with an amplitude *)
  Definition modes (c : nat -> Complex.C) (z : R) (i : nat) : R :=
    sumn N (fun k => Re (Cmult (Cmult (s_V s i k) (c k)) (cexp (Cmult (RtoC z) (s_L s k))))).

  Lemma mode_derive a l z : is_derive (fun z => Re (Cmult a (cexp (Cmult (RtoC z) l)))) z (Re (Cmult (Cmult a l) (cexp (Cmult (RtoC z) l)))).
  Proof.
    destruct a as [a b], l as [p q]. unfold Cmult, cexp, RtoC, Re, Im. cbn [fst snd].
    replace (z * p - 0 * q) with (z * p) by ring. replace (z * q + 0 * p) with (z * q) by ring.
    apply (is_derive_ext (fun z => exp (z * p) * (a * cos (z * q) - b * sin (z * q)))).
    - intros t. replace (t * p - 0 * q) with (t * p) by ring. replace (t * q + 0 * p) with (t * q) by ring.
      match goal with |- ?a = ?b => change (@eq R a b) end. ring.
    - auto_derive; [auto|]. ring.
  Qed.

  Lemma re_scal r c : Re (Cmult (RtoC r) c) = r * Re c.
  Proof. rewrite re_mult. cbn. ring. Qed.

  Lemma modes_A c z i : (i < N)%nat -> sumn N (fun j => A i j * modes c z j)
    = sumn N (fun k => Re (Cmult (Cmult (Cmult (s_V s i k) (c k)) (s_L s k)) (cexp (Cmult (RtoC z) (s_L s k))))).
  Proof.
    intros Hi. destruct D as [AV _]. unfold modes.
    rewrite (sumn_ext N _ (fun j => sumn N (fun k => A i j * Re (Cmult (Cmult (s_V s j k) (c k)) (cexp (Cmult (RtoC z) (s_L s k)))))))
      by (intros; rewrite <- sumn_scal; auto).
    rewrite sumn_swap. apply sumn_ext. intros k Hk.
    replace (Cmult (Cmult (Cmult (s_V s i k) (c k)) (s_L s k)) (cexp (Cmult (RtoC z) (s_L s k))))
      with (Cmult (Cmult (s_V s i k) (s_L s k)) (Cmult (c k) (cexp (Cmult (RtoC z) (s_L s k))))) by ring.
    rewrite <- AV by auto. rewrite csum_mult_r, re_csum. apply sumn_ext. intros j Hj. rewrite <- re_scal. f_equal. ring.
  Qed.

  Lemma modes_derive c z i : (i < N)%nat -> is_derive (fun z => modes c z i) z (sumn N (fun j => A i j * modes c z j)).
  Proof.
    intros Hi. rewrite modes_A by auto. unfold modes.
    apply (is_derive_sumn N (fun k z => Re (Cmult (Cmult (s_V s i k) (c k)) (cexp (Cmult (RtoC z) (s_L s k)))))).
    intros k Hk. apply mode_derive.
  Qed.

  Lemma cexp_0 l : cexp (Cmult (RtoC 0) l) = RtoC 1.
  Proof.
    replace (Cmult (RtoC 0) l) with (RtoC 0) by ring. unfold cexp, RtoC. cbn [Re Im fst snd]. rewrite exp_0, cos_0, sin_0. apply c_ext; cbn; ring.
  Qed.

  Lemma modes_0 c i : modes c 0 i = Re (csum N (fun k => Cmult (s_V s i k) (c k))).
  Proof. unfold modes. rewrite re_csum. apply sumn_ext. intros k Hk. rewrite cexp_0. f_equal. ring. Qed.

  (** ** The two solutions of the code *)
  Definition unit_mode (j : nat) : nat -> Complex.C := fun k => s_W s k j.
  Definition wall_mode (a : nat -> R) : nat -> Complex.C :=
    fun k => Cmult (Cinv (s_L s k)) (csum N (fun j => Cmult (s_W s k j) (RtoC (a j)))).

  Lemma a_f0_modes z i j : a_f0 N s z i j = modes (unit_mode j) z i.
  Proof. unfold a_f0, modes, unit_mode. rewrite re_csum. apply sumn_ext. intros k Hk. f_equal. ring. Qed.

  Lemma a_f0_zero i j : (i < N)%nat -> (j < N)%nat -> a_f0 N s 0 i j = id_mx i j.
  Proof. intros Hi Hj. rewrite a_f0_modes, modes_0. unfold unit_mode. destruct D as [_ [VW _]]. rewrite VW by auto. reflexivity. Qed.

  Lemma a_f0_derive z i j : (i < N)%nat -> is_derive (fun z => a_f0 N s z i j) z (sumn N (fun l => A i l * a_f0 N s z l j)).
  Proof.
    intros Hi. apply (is_derive_ext (fun z => modes (unit_mode j) z i)); [intros; rewrite a_f0_modes; auto|].
    rewrite (sumn_ext N _ (fun l => A i l * modes (unit_mode j) z l)) by (intros; rewrite a_f0_modes; auto). apply modes_derive; auto.
  Qed.

  Lemma a_b_modes a edges z i l : a_b N s a edges z i l
    = modes (wall_mode a) (dz z (nth (S l) edges 0)) i - modes (wall_mode a) (dz z (nth l edges 0)) i.
  Proof.
    unfold a_b, modes, wall_mode. rewrite re_csum, <- sumn_minus. apply sumn_ext. intros k Hk.
    rewrite (Cmult_comm (s_L s k) (RtoC (dz z (nth (S l) edges 0)))), (Cmult_comm (s_L s k) (RtoC (dz z (nth l edges 0)))).
    set (x := cexp _). set (y := cexp _). set (w := csum _ _). 
    replace (Cmult (Cmult (Cmult (s_V s i k) (Cinv (s_L s k))) w) (Cminus x y))
      with (Cminus (Cmult (Cmult (s_V s i k) (Cmult (Cinv (s_L s k)) w)) x) (Cmult (Cmult (s_V s i k) (Cmult (Cinv (s_L s k)) w)) y)) by ring.
    reflexivity.
  Qed.

  Lemma wall_source a i : (i < N)%nat -> (forall k, (k < N)%nat -> s_L s k <> RtoC 0) ->
    sumn N (fun j => A i j * modes (wall_mode a) 0 j) = a i.
  Proof.
    intros Hi L. rewrite modes_A by auto. destruct D as [_ [VW _]].
    rewrite (sumn_ext N _ (fun k => Re (csum N (fun j => Cmult (Cmult (s_V s i k) (s_W s k j)) (RtoC (a j)))))).
    - rewrite <- re_csum, csum_swap, re_csum. rewrite (sumn_ext N _ (fun j => id_mx i j * a j)).
      + apply sumn_id. auto.
      + intros j Hj. rewrite <- csum_mult_r, VW by auto. rewrite re_scal. cbn [Re RtoC fst]. auto.
    - intros k Hk. f_equal. rewrite cexp_0. unfold wall_mode.
      transitivity (Cmult (s_V s i k) (csum N (fun j => Cmult (s_W s k j) (RtoC (a j))))).
      + set (w := csum _ _). field. apply L. auto.
      + rewrite csum_mult_l. apply csum_ext. intros j Hj. ring.
  Qed.
End Modes.
