(* Temperature and heat flux of the multipole method at the borehole wall. *)
From Coq Require Import Reals Lra Lia List Bool Psatz.
From Verif Require Import Base LinAlg Bore_Model Net_Model Pipe_Model Res_Model Res_Spec Res_Mult_Proofs.
From Coquelicot Require Import Coquelicot.
Import ListNotations.
Local Open Scope R_scope.

(** ** Continuity in the plane *)

Definition c2 (f : C -> C) (z : C) : Prop :=
  continuity_2d_pt (fun x y => fst (f (x, y))) (fst z) (snd z)
  /\ continuity_2d_pt (fun x y => snd (f (x, y))) (fst z) (snd z).
Definition r2 (f : C -> R) (z : C) : Prop := continuity_2d_pt (fun x y => f (x, y)) (fst z) (snd z).

Lemma c2_const c z : c2 (fun _ => c) z.
Proof. split; apply continuity_2d_pt_const. Qed.
Lemma c2_id z : c2 (fun w => w) z.
Proof. split; cbn; [apply continuity_2d_pt_id1|apply continuity_2d_pt_id2]. Qed.
Lemma c2_conj f z : c2 f z -> c2 (fun w => Cconj (f w)) z.
Proof. intros [A B]. split; cbn; [exact A|]. apply continuity_2d_pt_opp. exact B. Qed.
Lemma c2_plus f g z : c2 f z -> c2 g z -> c2 (fun w => Cplus (f w) (g w)) z.
Proof. intros [A B] [A' B']. split; cbn; apply continuity_2d_pt_plus; auto. Qed.
Lemma c2_minus f g z : c2 f z -> c2 g z -> c2 (fun w => Cminus (f w) (g w)) z.
Proof. intros [A B] [A' B']. split; cbn; apply continuity_2d_pt_minus; auto. Qed.
Lemma c2_mult f g z : c2 f z -> c2 g z -> c2 (fun w => Cmult (f w) (g w)) z.
Proof.
  intros [A B] [A' B']. split; cbn; [apply continuity_2d_pt_minus|apply continuity_2d_pt_plus]; apply continuity_2d_pt_mult; auto.
Qed.
Lemma c2_pow f z k : c2 f z -> c2 (fun w => cpow (f w) k) z.
Proof. intros H. induction k as [|k IH]; cbn [cpow]; [apply c2_const|apply c2_mult; auto]. Qed.

Lemma C_norm_pos (x : C) : x <> RtoC 0 -> fst x ^ 2 + snd x ^ 2 <> 0.
Proof. intros N E. apply N. destruct x as [a b]. cbn [fst snd] in E. assert (a = 0) by nra. assert (b = 0) by nra. subst. reflexivity. Qed.

Lemma sq2 f z : c2 f z -> r2 (fun w => fst (f w) ^ 2 + snd (f w) ^ 2) z.
Proof.
  intros [A B]. unfold r2. apply continuity_2d_pt_plus.
  - apply continuity_2d_pt_ext with (fun x y => fst (f (x, y)) * fst (f (x, y))); [intros; ring|]. apply continuity_2d_pt_mult; exact A.
  - apply continuity_2d_pt_ext with (fun x y => snd (f (x, y)) * snd (f (x, y))); [intros; ring|]. apply continuity_2d_pt_mult; exact B.
Qed.

Lemma c2_inv f z : c2 f z -> f z <> RtoC 0 -> c2 (fun w => Cinv (f w)) z.
Proof.
  intros H N. destruct (H) as [A B]. assert (D := sq2 f z H). assert (Z := C_norm_pos _ N). destruct z as [x0 y0].
  unfold r2 in D. cbn [fst snd] in *.
  assert (I : continuity_2d_pt (fun x y => / (fst (f (x, y)) ^ 2 + snd (f (x, y)) ^ 2)) x0 y0).
  { apply (continuity_2d_pt_inv (fun x y => fst (f (x, y)) ^ 2 + snd (f (x, y)) ^ 2)); [exact D|]. exact Z. }
  split; cbn [fst snd Cinv].
  - apply (continuity_2d_pt_mult _ _ x0 y0 A I).
  - apply continuity_2d_pt_ext with (fun x y => (- snd (f (x, y))) * / (fst (f (x, y)) ^ 2 + snd (f (x, y)) ^ 2)); [reflexivity|].
    apply continuity_2d_pt_mult; [apply continuity_2d_pt_opp; exact B|exact I].
Qed.
Lemma c2_div f g z : c2 f z -> c2 g z -> g z <> RtoC 0 -> c2 (fun w => Cdiv (f w) (g w)) z.
Proof. intros A B N. unfold Cdiv. apply c2_mult; [auto|apply c2_inv; auto]. Qed.

Lemma r2_const c z : r2 (fun _ => c) z. Proof. exact (continuity_2d_pt_const (fst z) (snd z) c). Qed.
Lemma r2_plus f g z : r2 f z -> r2 g z -> r2 (fun w => f w + g w) z.
Proof. exact (continuity_2d_pt_plus (fun x y => f (x, y)) (fun x y => g (x, y)) (fst z) (snd z)). Qed.
Lemma r2_mult f g z : r2 f z -> r2 g z -> r2 (fun w => f w * g w) z.
Proof. exact (continuity_2d_pt_mult (fun x y => f (x, y)) (fun x y => g (x, y)) (fst z) (snd z)). Qed.
Lemma r2_Re f z : c2 f z -> r2 (fun w => Re (f w)) z. Proof. intros [A _]. exact A. Qed.
Lemma r2_comp h f z : r2 f z -> continuity_pt h (f z) -> r2 (fun w => h (f w)) z.
Proof. intros A B. destruct z as [x y]. exact (continuity_1d_2d_pt_comp h (fun x y => f (x, y)) x y B A). Qed.
Lemma r2_sum n (f : nat -> C -> R) z : (forall i, (i < n)%nat -> r2 (f i) z) -> r2 (fun w => sumn n (fun i => f i w)) z.
Proof. induction n as [|n IH]; intros H; cbn [sumn]; [apply r2_const|]. apply r2_plus; [apply IH; auto|apply H; lia]. Qed.

Lemma continuity_ln x : 0 < x -> continuity_pt ln x.
Proof. intros H. apply derivable_continuous_pt. exists (/ x). apply derivable_pt_lim_ln. auto. Qed.
Lemma r2_Cmod f z : c2 f z -> r2 (fun w => Cmod (f w)) z.
Proof.
  intros H. unfold Cmod. apply (r2_comp sqrt (fun w => fst (f w) ^ 2 + snd (f w) ^ 2)); [apply sq2; auto|].
  apply continuity_pt_sqrt. pose proof (pow2_ge_0 (fst (f z))). pose proof (pow2_ge_0 (snd (f z))). lra.
Qed.
Lemma r2_lnmod c f z : 0 < c -> c2 f z -> f z <> RtoC 0 -> r2 (fun w => ln (c / Cmod (f w))) z.
Proof.
  intros Hc H N. assert (P := proj1 (Cmod_gt_0 (f z)) N).
  apply (r2_comp (fun t => ln (c / t)) (fun w => Cmod (f w))); [apply r2_Cmod; auto|].
  apply (continuity_pt_comp (fun t => c / t) ln); [|apply continuity_ln; apply Rdiv_lt_0_compat; auto].
  apply continuity_pt_div; [apply continuity_pt_const; intros a b; reflexivity|apply continuity_pt_id|lra].
Qed.

Lemma r2_locally f z (P : R -> Prop) : r2 f z -> locally (f z) P -> locally_2d (fun x y => P (f (x, y))) (fst z) (snd z).
Proof.
  intros A [e He]. destruct z as [x0 y0]. cbn [fst snd] in *.
  destruct (A e) as [d Hd]. exists d. intros u v Hu Hv. apply He. exact (Hd u v Hu Hv).
Qed.

(* A function that follows one of two continuous functions with the same value *)
Lemma r2_mix f g h z : r2 f z -> r2 g z -> f z = h z -> g z = h z ->
  locally_2d (fun x y => h (x, y) = f (x, y) \/ h (x, y) = g (x, y)) (fst z) (snd z) -> r2 h z.
Proof.
  intros A B Ef Eg L. destruct z as [x0 y0]. unfold r2 in *. cbn [fst snd] in *. intros e.
  destruct (A e) as [d1 H1]. destruct (B e) as [d2 H2]. destruct L as [d3 H3].
  exists (mkposreal (Rmin d1 (Rmin d2 d3)) ltac:(repeat apply Rmin_case; apply cond_pos)). cbn. intros u v Hu Hv.
  assert (Rmin d1 (Rmin d2 d3) <= d1 /\ Rmin d1 (Rmin d2 d3) <= d2 /\ Rmin d1 (Rmin d2 d3) <= d3) as (M1 & M2 & M3).
  { pose proof (Rmin_l d1 (Rmin d2 d3)). pose proof (Rmin_r d1 (Rmin d2 d3)). pose proof (Rmin_l d2 d3). pose proof (Rmin_r d2 d3). lra. }
  destruct (H3 u v) as [E|E]; [lra|lra| |]; rewrite E.
  - rewrite <- Ef. apply H1; lra.
  - rewrite <- Eg. apply H2; lra.
Qed.

(** ** Derivatives along a ray *)

Definition cder (f : R -> C) (x : R) (d : C) : Prop :=
  is_derive (fun t => fst (f t)) x (fst d) /\ is_derive (fun t => snd (f t)) x (snd d).

Lemma cder_const c x : cder (fun _ => c) x (RtoC 0).
Proof. split; apply (is_derive_const (V := R_NormedModule)). Qed.
Lemma cder_eq f x d d' : cder f x d -> d = d' -> cder f x d'. Proof. intros H <-. exact H. Qed.
Lemma cder_ray u x : cder (fun t => Cmult (RtoC t) u) x u.
Proof. split; cbn; auto_derive; auto; ring. Qed.
Lemma cder_plus f g x d e : cder f x d -> cder g x e -> cder (fun t => Cplus (f t) (g t)) x (Cplus d e).
Proof. intros [A B] [A' B']. split; cbn; apply (is_derive_plus (V := R_NormedModule)); auto. Qed.
Lemma cder_minus f g x d e : cder f x d -> cder g x e -> cder (fun t => Cminus (f t) (g t)) x (Cminus d e).
Proof. intros [A B] [A' B']. split; cbn; apply (is_derive_minus (V := R_NormedModule)); auto. Qed.
Lemma is_derive_prod (f g : R -> R) x d e : is_derive f x d -> is_derive g x e -> is_derive (fun t => f t * g t) x (d * g x + f x * e).
Proof. intros A B. apply (is_derive_mult f g x d e A B). intros n m. apply Rmult_comm. Qed.
Lemma cder_mult f g x d e : cder f x d -> cder g x e -> cder (fun t => Cmult (f t) (g t)) x (Cplus (Cmult d (g x)) (Cmult (f x) e)).
Proof.
  intros [A B] [A' B']. split; cbn.
  - evar_last; [apply (is_derive_minus (V := R_NormedModule)); apply is_derive_prod; eassumption|]. unfold minus, plus, opp; cbn. ring.
  - evar_last; [apply (is_derive_plus (V := R_NormedModule)); apply is_derive_prod; eassumption|]. unfold plus; cbn. ring.
Qed.
Lemma cder_pow f x d k : cder f x d ->
  cder (fun t => cpow (f t) (S k)) x (Cmult (Cmult (RtoC (INR (S k))) (cpow (f x) k)) d).
Proof.
  intros H. induction k as [|k IH].
  - cbn [cpow INR]. eapply cder_eq; [apply (cder_mult f (fun _ => RtoC 1)); [exact H|apply cder_const]|]. cbn [cpow]. ring.
  - change (fun t => cpow (f t) (S (S k))) with (fun t => Cmult (f t) (cpow (f t) (S k))).
    eapply cder_eq; [apply cder_mult; [exact H|exact IH]|]. rewrite (S_INR (S k)), RtoC_plus. cbn [cpow]. ring.
Qed.
Lemma cder_inv f x d : cder f x d -> f x <> RtoC 0 -> cder (fun t => Cinv (f t)) x (Copp (Cmult d (Cmult (Cinv (f x)) (Cinv (f x))))).
Proof.
  intros [A B] N. assert (Z := C_norm_pos _ N).
  set (p := fun t => fst (f t)) in *. set (q := fun t => snd (f t)) in *.
  assert (Ea : Derive p x = fst d) by (apply is_derive_unique; exact A).
  assert (Eb : Derive q x = snd d) by (apply is_derive_unique; exact B).
  assert (Xa : ex_derive p x) by (exists (fst d); exact A). assert (Xb : ex_derive q x) by (exists (snd d); exact B).
  change (fst (f x)) with (p x) in Z. change (snd (f x)) with (q x) in Z.
  split; cbn [fst snd Cinv Copp Cmult].
  - change (is_derive (fun t => p t / (p t ^ 2 + q t ^ 2)) x
      (- (fst d * (p x / (p x ^ 2 + q x ^ 2) * (p x / (p x ^ 2 + q x ^ 2)) - - q x / (p x ^ 2 + q x ^ 2) * (- q x / (p x ^ 2 + q x ^ 2)))
          - snd d * (p x / (p x ^ 2 + q x ^ 2) * (- q x / (p x ^ 2 + q x ^ 2)) + - q x / (p x ^ 2 + q x ^ 2) * (p x / (p x ^ 2 + q x ^ 2)))))).
    auto_derive; [repeat split; auto|]. change (Derive (fun x => p x) x) with (Derive p x). change (Derive (fun x => q x) x) with (Derive q x).
    rewrite Ea, Eb. field. exact Z.
  - change (is_derive (fun t => - q t / (p t ^ 2 + q t ^ 2)) x
      (- (fst d * (p x / (p x ^ 2 + q x ^ 2) * (- q x / (p x ^ 2 + q x ^ 2)) + - q x / (p x ^ 2 + q x ^ 2) * (p x / (p x ^ 2 + q x ^ 2)))
          + snd d * (p x / (p x ^ 2 + q x ^ 2) * (p x / (p x ^ 2 + q x ^ 2)) - - q x / (p x ^ 2 + q x ^ 2) * (- q x / (p x ^ 2 + q x ^ 2)))))).
    auto_derive; [repeat split; auto|]. change (Derive (fun x => p x) x) with (Derive p x). change (Derive (fun x => q x) x) with (Derive q x).
    rewrite Ea, Eb. field. exact Z.
Qed.
Lemma cder_lnmod c f x d : 0 < c -> cder f x d -> f x <> RtoC 0 -> is_derive (fun t => ln (c / Cmod (f t))) x (- Re (Cdiv d (f x))).
Proof.
  intros Hc [A B] N. assert (Z := C_norm_pos _ N).
  set (p := fun t => fst (f t)) in *. set (q := fun t => snd (f t)) in *.
  assert (Ea : Derive p x = fst d) by (apply is_derive_unique; exact A).
  assert (Eb : Derive q x = snd d) by (apply is_derive_unique; exact B).
  assert (Xa : ex_derive p x) by (exists (fst d); exact A). assert (Xb : ex_derive q x) by (exists (snd d); exact B).
  change (fst (f x)) with (p x) in Z. change (snd (f x)) with (q x) in Z.
  assert (Zp : 0 < p x ^ 2 + q x ^ 2) by (pose proof (pow2_ge_0 (p x)); pose proof (pow2_ge_0 (q x)); lra).
  assert (Sp := sqrt_lt_R0 _ Zp). assert (Sq := pow2_sqrt _ (Rlt_le _ _ Zp)).
  change (is_derive (fun t => ln (c / sqrt (p t ^ 2 + q t ^ 2))) x
    (- (fst d * (p x / (p x ^ 2 + q x ^ 2)) - snd d * (- q x / (p x ^ 2 + q x ^ 2))))).
  auto_derive.
  - replace (p x * (p x * 1) + q x * (q x * 1)) with (p x ^ 2 + q x ^ 2) by ring. repeat split; auto; [lra|]. apply Rmult_lt_0_compat; [auto|apply Rinv_0_lt_compat; auto].
  - change (Derive (fun x => p x) x) with (Derive p x). change (Derive (fun x => q x) x) with (Derive q x).
    rewrite Ea, Eb. replace (p x * (p x * 1) + q x * (q x * 1)) with (p x ^ 2 + q x ^ 2) by ring.
    set (w := sqrt (p x ^ 2 + q x ^ 2)) in *. rewrite <- Sq. field. split; lra.
Qed.
Lemma cder_Re f x d : cder f x d -> is_derive (fun t => Re (f t)) x (Re d). Proof. intros [A _]. exact A. Qed.
Lemma is_derive_sum n (f : nat -> R -> R) (d : nat -> R) x : (forall i, (i < n)%nat -> is_derive (f i) x (d i)) ->
  is_derive (fun t => sumn n (fun i => f i t)) x (sumn n d).
Proof.
  induction n as [|n IH]; intros H; cbn [sumn]; [apply (is_derive_const (V := R_NormedModule))|].
  apply (is_derive_plus (V := R_NormedModule) (fun t => sumn n (fun i => f i t)) (f n)); [apply IH; auto|apply H; lia].
Qed.

Lemma slopes f g h x d e : is_derive f x d -> is_derive g x e -> f x = h x -> g x = h x ->
  (exists r, 0 < r /\ forall t, Rabs (t - x) < r -> (t <= x -> h t = f t) /\ (x < t -> h t = g t)) ->
  left_slope h x d /\ right_slope h x e.
Proof.
  intros A B Ef Eg (r & Hr & H). apply is_derive_Reals in A, B. split; intros eps He.
  - destruct (A eps He) as [dl Hd]. exists (Rmin dl r). split; [apply Rmin_case; [apply cond_pos|auto]|].
    intros t Ht. pose proof (Rmin_l dl r). pose proof (Rmin_r dl r). rewrite <- Ef.
    rewrite (proj1 (H (x + t) ltac:(apply Rabs_def1; lra))) by lra. apply Hd; [lra|apply Rabs_def1; lra].
  - destruct (B eps He) as [dl Hd]. exists (Rmin dl r). split; [apply Rmin_case; [apply cond_pos|auto]|].
    intros t Ht. pose proof (Rmin_l dl r). pose proof (Rmin_r dl r). rewrite <- Eg.
    rewrite (proj2 (H (x + t) ltac:(apply Rabs_def1; lra))) by lra. apply Hd; [lra|apply Rabs_def1; lra].
Qed.

(** ** The field *)

Section Field.
Variables (s : section) (Tb : R) (q : nat -> R) (P : poles) (J : nat).
Hypothesis (In : pipes_inside s).

Definition W0i (z : C) (n : nat) : R :=
  ln (s_rb s / Cmod (Cminus z (s_z s n)))
  + sig s * ln (s_rb s ^ 2 / Cmod (Cminus (RtoC (s_rb s ^ 2)) (Cmult (s_z s n) (Cconj z)))).
Definition W0o (z : C) (n : nat) : R :=
  (1 + sig s) * ln (s_rb s / Cmod (Cminus z (s_z s n)))
  + sig s * (1 + sig s) / (1 - sig s) * ln (s_rb s / Cmod z).
Definition WJi (z : C) (n j : nat) : C :=
  Cplus (cpow (Cdiv (RtoC (s_r s n)) (Cminus z (s_z s n))) (S j))
    (Cmult (RtoC (sig s)) (cpow (Cdiv (Cmult (RtoC (s_r s n)) (Cconj z))
                                        (Cminus (RtoC (s_rb s ^ 2)) (Cmult (s_z s n) (Cconj z)))) (S j))).
Definition WJo (z : C) (n j : nat) : C :=
  Cmult (RtoC (1 + sig s)) (cpow (Cdiv (RtoC (s_r s n)) (Cminus z (s_z s n))) (S j)).
Definition Fi (z : C) : R := Tb + sumn (s_n s) (fun n => q n * pikg s * W0i z n + sumn J (fun j => Re (Cmult (P n j) (WJi z n j)))).
Definition Fo (z : C) : R := Tb + sumn (s_n s) (fun n => q n * pikg s * W0o z n + sumn J (fun j => Re (Cmult (P n j) (WJo z n j)))).

Lemma outside_in z : Cmod z <= s_rb s -> outside_T s Tb q P J z = Fi z.
Proof. intros H. unfold outside_T, W0, WJ. rewrite (proj2 (Rleb_true _ _) H). reflexivity. Qed.
Lemma outside_out z : s_rb s < Cmod z -> outside_T s Tb q P J z = Fo z.
Proof.
  intros H. unfold outside_T, W0, WJ. assert (E : Rleb (Cmod z) (s_rb s) = false) by (apply Rleb_false; lra). rewrite E. reflexivity.
Qed.

Local Notation clear := (outside_pipes s).

Lemma clear_wall z : Cmod z = s_rb s -> clear z.
Proof.
  intros E n Hn. destruct In as (_ & _ & _ & H). destruct (H n Hn) as [_ L].
  pose proof (Cmod_triangle (Cminus z (s_z s n)) (s_z s n)) as T.
  replace (Cplus (Cminus z (s_z s n)) (s_z s n)) with z in T by ring. lra.
Qed.

Lemma find_false {A} (f : A -> bool) l : (forall x, List.In x l -> f x = false) -> find f l = None.
Proof. induction l as [|x l IH]; intros H; cbn; [reflexivity|]. rewrite (H x) by (left; auto). apply IH. intros y Hy. apply H. right. auto. Qed.

Lemma field_clear z : clear z -> field_T s Tb q P J z = outside_T s Tb q P J z.
Proof.
  intros H. unfold field_T. rewrite find_false; [reflexivity|]. intros n Hn. apply in_seq in Hn.
  destruct In as (_ & _ & _ & K). destruct (K n) as [Rp _]; [lia|]. specialize (H n ltac:(lia)).
  apply Rltb_false. apply Rmult_le_reg_r with (s_r s n); [lra|]. unfold Rdiv. rewrite Rmult_assoc, Rinv_l by lra. lra.
Qed.

Lemma clear_local z : clear z -> locally_2d (fun x y => clear (x, y)) (fst z) (snd z).
Proof.
  unfold outside_pipes. generalize (s_n s). induction n as [|N IH]; intros H.
  - exists (mkposreal 1 Rlt_0_1). intros u v _ _ n Hn. lia.
  - assert (L1 := IH ltac:(intros n Hn; apply H; lia)).
    assert (L2 : locally_2d (fun x y => s_r s N < Cmod (Cminus (x, y) (s_z s N))) (fst z) (snd z)).
    { apply (r2_locally (fun w => Cmod (Cminus w (s_z s N))) z (fun t => s_r s N < t)).
      - apply r2_Cmod. apply c2_minus; [apply c2_id|apply c2_const].
      - apply (open_gt (s_r s N)). apply H. lia. }
    eapply locally_2d_impl; [|exact (locally_2d_and _ _ _ _ L1 L2)]. apply locally_2d_forall. intros u v [A B] n Hn.
    destruct (Nat.eq_dec n N) as [->|Ne]; [exact B|apply A; lia].
Qed.

Lemma sig_ne : 1 - sig s <> 0.
Proof.
  destruct In as (_ & Ks & Kg & _). unfold sig. replace (1 - (s_kg s - s_ks s) / (s_kg s + s_ks s)) with (2 * s_ks s / (s_kg s + s_ks s)) by (field; lra).
  apply Rgt_not_eq. apply Rdiv_lt_0_compat; lra.
Qed.

Lemma clear_ne z n : clear z -> (n < s_n s)%nat -> Cminus z (s_z s n) <> RtoC 0.
Proof.
  intros H Hn. apply Cmod_gt_0. destruct In as (_ & _ & _ & K). destruct (K n Hn) as [Rp _]. specialize (H n Hn). lra.
Qed.
Lemma image_ne z n : Cmod z <= s_rb s -> (n < s_n s)%nat -> Cminus (RtoC (s_rb s ^ 2)) (Cmult (s_z s n) (Cconj z)) <> RtoC 0.
Proof.
  intros H Hn E. destruct In as (Rb & _ & _ & K). destruct (K n Hn) as [Rp L].
  assert (E' : Cmult (s_z s n) (Cconj z) = RtoC (s_rb s ^ 2)).
  { transitivity (Cminus (RtoC (s_rb s ^ 2)) (Cminus (RtoC (s_rb s ^ 2)) (Cmult (s_z s n) (Cconj z)))); [ring|rewrite E; ring]. }
  apply (f_equal Cmod) in E'. rewrite Cmod_mult, Cmod_conj, Cmod_R, Rabs_pos_eq in E' by apply pow2_ge_0.
  pose proof (Cmod_ge_0 z). pose proof (Cmod_ge_0 (s_z s n)). assert (Cmod (s_z s n) * Cmod z <= Cmod (s_z s n) * s_rb s) by (apply Rmult_le_compat_l; auto).
  nra.
Qed.

(* The two formulas have the same value on the wall *)
Lemma wall_image z n : Cmod z = s_rb s -> Cminus (RtoC (s_rb s ^ 2)) (Cmult (s_z s n) (Cconj z)) = Cmult (Cconj z) (Cminus z (s_z s n)).
Proof.
  intros H. rewrite <- H. replace (RtoC (Cmod z ^ 2)) with (Cmult z (Cconj z)); [ring|].
  apply C_ext; cbn [fst snd RtoC Cmult Cconj]; [|ring]. unfold Cmod. rewrite pow2_sqrt by (pose proof (pow2_ge_0 (fst z)); pose proof (pow2_ge_0 (snd z)); lra). ring.
Qed.

Lemma agree z : Cmod z = s_rb s -> Fi z = Fo z.
Proof.
  intros H. pose proof In as (Rb & _ & _ & K). unfold Fi, Fo. f_equal. apply sumn_ext. intros n Hn.
  assert (Z : clear z) by (apply clear_wall; auto). assert (N := clear_ne z n Z Hn). assert (Mp := proj1 (Cmod_gt_0 _) N).
  assert (Nz : Cconj z <> RtoC 0) by (apply Cmod_gt_0; rewrite Cmod_conj; lra).
  f_equal.
  - f_equal. unfold W0i, W0o. rewrite wall_image, Cmod_mult, Cmod_conj, H by auto.
    replace (s_rb s ^ 2 / (s_rb s * Cmod (Cminus z (s_z s n)))) with (s_rb s / Cmod (Cminus z (s_z s n))) by (field; split; lra).
    replace (s_rb s / s_rb s) with 1 by (field; lra). rewrite ln_1. ring.
  - apply sumn_ext. intros j _. f_equal. f_equal. unfold WJi, WJo. rewrite wall_image by auto.
    replace (Cdiv (Cmult (RtoC (s_r s n)) (Cconj z)) (Cmult (Cconj z) (Cminus z (s_z s n)))) with (Cdiv (RtoC (s_r s n)) (Cminus z (s_z s n))).
    + rewrite RtoC_plus. ring.
    + field. auto.
Qed.

Lemma Fi_cont z : clear z -> Cmod z <= s_rb s -> r2 Fi z.
Proof.
  intros Z H. destruct In as (Rb & _). unfold Fi. apply r2_plus; [apply r2_const|]. apply (r2_sum (s_n s) (fun n z => q n * pikg s * W0i z n + sumn J (fun j => Re (Cmult (P n j) (WJi z n j))))).
  intros n Hn. assert (N := clear_ne z n Z Hn). assert (I := image_ne z n H Hn).
  assert (D : c2 (fun w => Cminus w (s_z s n)) z) by (apply c2_minus; [apply c2_id|apply c2_const]).
  assert (E : c2 (fun w => Cminus (RtoC (s_rb s ^ 2)) (Cmult (s_z s n) (Cconj w))) z).
  { apply c2_minus; [apply c2_const|]. apply c2_mult; [apply c2_const|]. apply c2_conj. apply c2_id. }
  apply r2_plus.
  - apply r2_mult; [apply r2_const|]. unfold W0i. apply r2_plus.
    + apply (r2_lnmod (s_rb s) (fun w => Cminus w (s_z s n))); auto.
    + apply r2_mult; [apply r2_const|]. apply (r2_lnmod (s_rb s ^ 2) (fun w => Cminus (RtoC (s_rb s ^ 2)) (Cmult (s_z s n) (Cconj w)))); auto. apply pow_lt. auto.
  - apply (r2_sum J (fun j z => Re (Cmult (P n j) (WJi z n j)))). intros j _. apply r2_Re. apply c2_mult; [apply c2_const|]. unfold WJi.
    apply c2_plus; [|apply c2_mult; [apply c2_const|]]; apply (fun g => c2_pow g z (S j)); apply c2_div; auto; [apply c2_const|].
    apply c2_mult; [apply c2_const|apply c2_conj; apply c2_id].
Qed.

Lemma Fo_cont z : clear z -> z <> RtoC 0 -> r2 Fo z.
Proof.
  intros Z H. destruct In as (Rb & _). unfold Fo. apply r2_plus; [apply r2_const|]. apply (r2_sum (s_n s) (fun n z => q n * pikg s * W0o z n + sumn J (fun j => Re (Cmult (P n j) (WJo z n j))))).
  intros n Hn. assert (N := clear_ne z n Z Hn).
  assert (D : c2 (fun w => Cminus w (s_z s n)) z) by (apply c2_minus; [apply c2_id|apply c2_const]).
  apply r2_plus.
  - apply r2_mult; [apply r2_const|]. unfold W0o. apply r2_plus; (apply r2_mult; [apply r2_const|]).
    + apply (r2_lnmod (s_rb s) (fun w => Cminus w (s_z s n))); auto.
    + apply (r2_lnmod (s_rb s) (fun w => w)); auto. apply c2_id.
  - apply (r2_sum J (fun j z => Re (Cmult (P n j) (WJo z n j)))). intros j _. apply r2_Re. apply c2_mult; [apply c2_const|]. unfold WJo.
    apply c2_mult; [apply c2_const|]. apply (fun g => c2_pow g z (S j)); apply c2_div; auto; apply c2_const.
Qed.

Lemma field_cont z : clear z -> r2 (field_T s Tb q P J) z.
Proof.
  intros Z. pose proof In as (Rb & _). assert (L := clear_local z Z).
  assert (M : r2 (fun w => Cmod w) z) by (apply r2_Cmod; apply c2_id).
  destruct (Rtotal_order (Cmod z) (s_rb s)) as [C|[C|C]].
  - apply (r2_mix Fi Fi); [apply Fi_cont; auto; lra|apply Fi_cont; auto; lra| | |].
    1,2: rewrite field_clear, outside_in by (auto; lra); reflexivity.
    assert (L2 := r2_locally _ z (fun t => t < s_rb s) M ltac:(apply (open_lt (s_rb s)); exact C)).
    eapply locally_2d_impl; [|exact (locally_2d_and _ _ _ _ L L2)]. apply locally_2d_forall. intros u v [A B]. left.
    rewrite field_clear, outside_in by (auto; lra). reflexivity.
  - assert (Nz : z <> RtoC 0) by (apply Cmod_gt_0; lra).
    apply (r2_mix Fi Fo); [apply Fi_cont; auto; lra|apply Fo_cont; auto| | |].
    1: rewrite field_clear, outside_in by (auto; lra); reflexivity.
    1: rewrite field_clear, outside_in, agree by (auto; lra); reflexivity.
    eapply locally_2d_impl; [|exact L]. apply locally_2d_forall. intros u v A.
    rewrite field_clear by auto. destruct (Rle_lt_dec (Cmod (u, v)) (s_rb s)) as [D|D]; [left; apply outside_in; auto|right; apply outside_out; auto].
  - assert (Nz : z <> RtoC 0) by (apply Cmod_gt_0; lra).
    apply (r2_mix Fo Fo); [apply Fo_cont; auto|apply Fo_cont; auto| | |].
    1,2: rewrite field_clear, outside_out by (auto; lra); reflexivity.
    assert (L2 := r2_locally _ z (fun t => s_rb s < t) M ltac:(apply (open_gt (s_rb s)); exact C)).
    eapply locally_2d_impl; [|exact (locally_2d_and _ _ _ _ L L2)]. apply locally_2d_forall. intros u v [A B]. left.
    rewrite field_clear, outside_out by (auto; lra). reflexivity.
Qed.

(* Heat flux along the ray of direction u *)
Variable u : C.
Hypothesis (Uu : Cmod u = 1).
Let rb := s_rb s.
Let z0 := Cmult (RtoC rb) u.

Definition slope0 (n : nat) : R := Re (Cdiv u (Cminus z0 (s_z s n))).
Definition slopeJ (n j : nat) : C := Cmult (Cmult (RtoC (INR (S j))) (cpow (Cdiv (RtoC (s_r s n)) (Cminus z0 (s_z s n))) j))
   (Copp (Cmult (RtoC (s_r s n)) (Cmult u (Cmult (Cinv (Cminus z0 (s_z s n))) (Cinv (Cminus z0 (s_z s n))))))).
Definition slope_in : R := sumn (s_n s) (fun n =>
  q n * pikg s * (- ((1 - sig s) * slope0 n + sig s / rb)) + sumn J (fun j => Re (Cmult (P n j) (Cmult (RtoC (1 - sig s)) (slopeJ n j))))).
Definition slope_out : R := sumn (s_n s) (fun n =>
  q n * pikg s * (- ((1 + sig s) * slope0 n + sig s * (1 + sig s) / (1 - sig s) / rb))
  + sumn J (fun j => Re (Cmult (P n j) (Cmult (RtoC (1 + sig s)) (slopeJ n j))))).

Lemma flux_balance : s_kg s * slope_in = s_ks s * slope_out.
Proof.
  destruct In as (Rb & Ks & Kg & _). unfold slope_in, slope_out. rewrite <- !sumn_scal. apply sumn_ext. intros n _.
  assert (E1 : s_kg s * (1 - sig s) = s_ks s * (1 + sig s)) by (unfold sig; field; lra).
  assert (E2 : s_kg s * sig s = s_ks s * (sig s * (1 + sig s) / (1 - sig s))).
  { pose proof sig_ne as Sn. apply Rmult_eq_reg_r with (1 - sig s); [|exact Sn].
    replace (s_ks s * (sig s * (1 + sig s) / (1 - sig s)) * (1 - sig s)) with (sig s * (s_ks s * (1 + sig s))) by (field; exact Sn).
    rewrite <- E1. ring. }
  rewrite !Rmult_plus_distr_l. f_equal.
  - transitivity (- (q n * pikg s) * (s_kg s * (1 - sig s) * slope0 n + s_kg s * sig s / rb)); [unfold Rdiv; ring|].
    rewrite E1, E2. unfold Rdiv. ring.
  - rewrite <- !sumn_scal. apply sumn_ext. intros j _.
    assert (X : forall k r x y, k * Re (Cmult x (Cmult (RtoC r) y)) = k * r * Re (Cmult x y)) by (intros; cbn; ring).
    rewrite !X, E1. reflexivity.
Qed.

Lemma uu : Cmult u (Cconj u) = RtoC 1.
Proof.
  assert (E : Cmod u ^ 2 = 1) by (rewrite Uu; ring). unfold Cmod in E. rewrite pow2_sqrt in E by (pose proof (pow2_ge_0 (fst u)); pose proof (pow2_ge_0 (snd u)); lra).
  apply C_ext; cbn; lra.
Qed.
Lemma mod_ray t : 0 <= t -> Cmod (Cmult (RtoC t) u) = t.
Proof. intros H. rewrite Cmod_mult, Cmod_R, Rabs_pos_eq, Uu by auto. ring. Qed.
Lemma rb_nz : RtoC rb <> RtoC 0.
Proof. destruct In as (Rb & _). intros E. injection E. fold rb in Rb. lra. Qed.
Lemma cu_nz : Cconj u <> RtoC 0. Proof. apply Cmod_gt_0. rewrite Cmod_conj, Uu. lra. Qed.
Lemma u_nz : u <> RtoC 0. Proof. apply Cmod_gt_0. rewrite Uu. lra. Qed.

Lemma cder_w n : cder (fun t => Cminus (Cmult (RtoC t) u) (s_z s n)) rb u.
Proof. eapply cder_eq; [apply cder_minus; [apply cder_ray|apply cder_const]|]. ring. Qed.
Lemma cder_v n : cder (fun t => Cminus (RtoC (rb ^ 2)) (Cmult (s_z s n) (Cconj (Cmult (RtoC t) u)))) rb (Copp (Cmult (s_z s n) (Cconj u))).
Proof.
  assert (X : cder (fun t => Cconj (Cmult (RtoC t) u)) rb (Cconj u)).
  { destruct (cder_ray u rb) as [A B]. split; cbn in *; [exact A|]. apply (is_derive_opp (V := R_NormedModule)). exact B. }
  eapply cder_eq; [apply cder_minus; [apply cder_const|apply cder_mult; [apply cder_const|exact X]]|]. cbv beta. ring.
Qed.

Lemma wall_pt : Cmod z0 = rb. Proof. destruct In as (Rb & _). apply mod_ray. fold rb in Rb. lra. Qed.

Lemma Fi_slope : is_derive (fun t => Fi (Cmult (RtoC t) u)) rb slope_in.
Proof.
  assert (Cl := clear_wall z0 wall_pt). pose proof In as (Rb & _). fold rb in Rb.
  unfold Fi. evar_last; [apply (is_derive_plus (V := R_NormedModule)); [apply (is_derive_const (V := R_NormedModule))|]|].
  - apply (is_derive_sum (s_n s) (fun n t => q n * pikg s * W0i (Cmult (RtoC t) u) n + sumn J (fun j => Re (Cmult (P n j) (WJi (Cmult (RtoC t) u) n j))))
      (fun n => q n * pikg s * (- ((1 - sig s) * slope0 n + sig s / rb)) + sumn J (fun j => Re (Cmult (P n j) (Cmult (RtoC (1 - sig s)) (slopeJ n j)))))).
    intros n Hn. assert (N := clear_ne z0 n Cl Hn). assert (I := image_ne z0 n ltac:(rewrite wall_pt; unfold rb; lra) Hn). assert (Wi := wall_image z0 n wall_pt).
    fold rb in I, Wi. assert (Pz : Cconj z0 <> RtoC 0) by (apply Cmod_gt_0; rewrite Cmod_conj, wall_pt; auto).
    pose proof rb_nz as Zr. pose proof cu_nz as Zc.
    assert (E0 : Cdiv (Copp (Cmult (s_z s n) (Cconj u))) (Cminus (RtoC (rb ^ 2)) (Cmult (s_z s n) (Cconj z0)))
                 = Cminus (Cinv (RtoC rb)) (Cdiv u (Cminus z0 (s_z s n)))).
    { rewrite Wi. unfold z0 at 1. rewrite conj_mult, conj_R.
      assert (X : s_z s n = Cminus z0 (Cminus z0 (s_z s n))) by ring. rewrite X at 1. set (w := Cminus z0 (s_z s n)) in *.
      unfold z0. field. auto. }
    apply (is_derive_plus (V := R_NormedModule) (fun t => q n * pikg s * W0i (Cmult (RtoC t) u) n) (fun t => sumn J (fun j => Re (Cmult (P n j) (WJi (Cmult (RtoC t) u) n j))))).
    + apply (is_derive_scal (fun t => W0i (Cmult (RtoC t) u) n) rb (q n * pikg s)).
      unfold W0i. fold rb. evar_last; [apply (is_derive_plus (V := R_NormedModule))|].
      * apply (cder_lnmod rb _ _ _ Rb (cder_w n)). exact N.
      * apply is_derive_scal. apply (cder_lnmod (rb ^ 2) _ _ _ (pow_lt _ _ Rb) (cder_v n)). exact I.
      * change (Cmult (RtoC rb) u) with z0. rewrite E0.
        replace (Re (Cminus (Cinv (RtoC rb)) (Cdiv u (Cminus z0 (s_z s n))))) with (/ rb - slope0 n).
        -- change (Re (Cdiv u (Cminus z0 (s_z s n)))) with (slope0 n). unfold plus; cbn -[slope0 sig]. unfold Rdiv. ring.
        -- rewrite <- RtoC_inv by lra. reflexivity.
    + apply (is_derive_sum J (fun j t => Re (Cmult (P n j) (WJi (Cmult (RtoC t) u) n j))) (fun j => Re (Cmult (P n j) (Cmult (RtoC (1 - sig s)) (slopeJ n j))))). intros j _. apply cder_Re.
      eapply cder_eq; [apply cder_mult; [apply cder_const|]|].
      * unfold WJi. fold rb. apply cder_plus.
        -- apply cder_pow. unfold Cdiv. apply cder_mult; [apply cder_const|]. apply cder_inv; [apply cder_w|exact N].
        -- apply cder_mult; [apply cder_const|]. apply cder_pow. unfold Cdiv. apply cder_mult; [|apply cder_inv; [apply cder_v|exact I]].
           apply cder_mult; [apply cder_const|].
           instantiate (1 := Cconj u). destruct (cder_ray u rb) as [A B]. split; cbn in *; [exact A|]. apply (is_derive_opp (V := R_NormedModule)). exact B.
      * cbv beta. change (Cmult (RtoC rb) u) with z0. rewrite Wi. unfold slopeJ. set (w := Cminus z0 (s_z s n)) in *.
        assert (X : s_z s n = Cminus z0 w) by (unfold w; ring). rewrite X.
        replace (Cdiv (Cmult (RtoC (s_r s n)) (Cconj z0)) (Cmult (Cconj z0) w)) with (Cdiv (RtoC (s_r s n)) w) by (field; auto).
        change (Cmult (RtoC (s_r s n)) (Cinv w)) with (Cdiv (RtoC (s_r s n)) w).
        set (pw := cpow (Cdiv (RtoC (s_r s n)) w) j). set (r := RtoC (s_r s n)). set (k := RtoC (INR (S j))).
        rewrite RtoC_minus. set (sg := RtoC (sig s)). 
        assert (Y : Cinv (Cmult (Cconj z0) w) = Cmult u (Cinv (Cmult (RtoC rb) w))).
        { unfold z0. rewrite conj_mult, conj_R. transitivity (Cmult (Cmult u (Cconj u)) (Cinv (Cmult (Cmult (RtoC rb) (Cconj u)) w))); [rewrite uu; ring|]. field. auto. }
        rewrite !Y. unfold z0. rewrite conj_mult, conj_R.
        assert (Q : Cmult u (Cconj u) = RtoC 1) by exact uu.
        transitivity (Cmult (Cmult (Cmult (P n j) (Cmult k pw)) (Cmult r (Cmult (Cinv w) (Cinv w))))
          (Cplus (Copp u) (Cmult sg (Cplus (Cmult (Cmult u (Cconj u)) (Cmult w (Cinv (RtoC rb))))
             (Cmult (Cmult (Cmult u (Cconj u)) (Cmult u (Cconj u))) (Cmult (Cminus (Cmult (RtoC rb) u) w) (Cinv (RtoC rb)))))))).
        -- field. auto.
        -- rewrite !Q. field. auto.
  - apply Rplus_0_l.
Qed.

Lemma Fo_slope : is_derive (fun t => Fo (Cmult (RtoC t) u)) rb slope_out.
Proof.
  assert (Cl := clear_wall z0 wall_pt). pose proof In as (Rb & _). fold rb in Rb.
  unfold Fo. evar_last; [apply (is_derive_plus (V := R_NormedModule)); [apply (is_derive_const (V := R_NormedModule))|]|].
  - apply (is_derive_sum (s_n s) (fun n t => q n * pikg s * W0o (Cmult (RtoC t) u) n + sumn J (fun j => Re (Cmult (P n j) (WJo (Cmult (RtoC t) u) n j))))
      (fun n => q n * pikg s * (- ((1 + sig s) * slope0 n + sig s * (1 + sig s) / (1 - sig s) / rb))
         + sumn J (fun j => Re (Cmult (P n j) (Cmult (RtoC (1 + sig s)) (slopeJ n j)))))).
    intros n Hn. assert (N := clear_ne z0 n Cl Hn).
    pose proof rb_nz as Zr. pose proof u_nz as Zu.
    apply (is_derive_plus (V := R_NormedModule) (fun t => q n * pikg s * W0o (Cmult (RtoC t) u) n) (fun t => sumn J (fun j => Re (Cmult (P n j) (WJo (Cmult (RtoC t) u) n j))))).
    + apply (is_derive_scal (fun t => W0o (Cmult (RtoC t) u) n) rb (q n * pikg s)).
      unfold W0o. fold rb. evar_last; [apply (is_derive_plus (V := R_NormedModule)); apply is_derive_scal|].
      * apply (cder_lnmod rb _ _ _ Rb (cder_w n)). exact N.
      * apply (cder_lnmod rb _ _ _ Rb (cder_ray u rb)). apply Cmult_neq_0; auto.
      * change (Cmult (RtoC rb) u) with z0. change (Re (Cdiv u (Cminus z0 (s_z s n)))) with (slope0 n).
        replace (Re (Cdiv u z0)) with (/ rb).
        -- unfold plus; cbn -[slope0 sig]. unfold Rdiv. ring.
        -- replace (Cdiv u z0) with (Cinv (RtoC rb)) by (unfold z0; field; auto). rewrite <- RtoC_inv by lra. reflexivity.
    + apply (is_derive_sum J (fun j t => Re (Cmult (P n j) (WJo (Cmult (RtoC t) u) n j))) (fun j => Re (Cmult (P n j) (Cmult (RtoC (1 + sig s)) (slopeJ n j))))). intros j _. apply cder_Re.
      eapply cder_eq; [apply cder_mult; [apply cder_const|]|].
      * unfold WJo. apply cder_mult; [apply cder_const|].
        apply cder_pow. unfold Cdiv. apply cder_mult; [apply cder_const|]. apply cder_inv; [apply cder_w|exact N].
      * cbv beta. change (Cmult (RtoC rb) u) with z0. unfold slopeJ, Cdiv. ring.
  - apply Rplus_0_l.
Qed.

Lemma ray_clear : exists r, 0 < r /\ forall t, Rabs (t - rb) < r -> clear (Cmult (RtoC t) u) /\ 0 < t.
Proof.
  pose proof In as (Rb & _). fold rb in Rb. destruct (clear_local z0 (clear_wall z0 wall_pt)) as [d Hd].
  exists (Rmin d rb). split; [apply Rmin_case; [apply cond_pos|auto]|]. intros t Ht.
  pose proof (Rmin_l d rb). pose proof (Rmin_r d rb). apply Rabs_def2 in Ht. split; [|lra].
  assert (Bu : Rabs (fst u) <= 1 /\ Rabs (snd u) <= 1) by (split; rewrite <- Uu; [apply (Rle_trans _ _ _ (Rmax_l _ _) (Rmax_Cmod u))|apply (Rle_trans _ _ _ (Rmax_r _ _) (Rmax_Cmod u))]).
  replace (Cmult (RtoC t) u) with ((t * fst u, t * snd u) : C) by (apply C_ext; cbn; ring).
  assert (At : Rabs (t - rb) < d) by (apply Rabs_def1; lra). pose proof (Rabs_pos (t - rb)). destruct Bu as [B1 B2].
  apply Hd.
  - replace (t * fst u - fst z0) with ((t - rb) * fst u) by (unfold z0; cbn; ring). rewrite Rabs_mult.
    assert (Rabs (t - rb) * Rabs (fst u) <= Rabs (t - rb) * 1) by (apply Rmult_le_compat_l; auto). lra.
  - replace (t * snd u - snd z0) with ((t - rb) * snd u) by (unfold z0; cbn; ring). rewrite Rabs_mult.
    assert (Rabs (t - rb) * Rabs (snd u) <= Rabs (t - rb) * 1) by (apply Rmult_le_compat_l; auto). lra.
Qed.

Lemma flux_wall : exists di do, left_slope (fun t => field_T s Tb q P J (Cmult (RtoC t) u)) rb di
  /\ right_slope (fun t => field_T s Tb q P J (Cmult (RtoC t) u)) rb do /\ s_kg s * di = s_ks s * do.
Proof.
  pose proof In as (Rb & _). fold rb in Rb. exists slope_in, slope_out.
  assert (E0 : field_T s Tb q P J (Cmult (RtoC rb) u) = Fi (Cmult (RtoC rb) u)).
  { rewrite field_clear by (apply clear_wall; exact wall_pt). apply outside_in. fold z0. rewrite wall_pt. unfold rb. lra. }
  destruct (slopes (fun t => Fi (Cmult (RtoC t) u)) (fun t => Fo (Cmult (RtoC t) u)) (fun t => field_T s Tb q P J (Cmult (RtoC t) u)) rb slope_in slope_out) as [A B].
  - exact Fi_slope.
  - exact Fo_slope.
  - cbv beta. rewrite E0. reflexivity.
  - cbv beta. rewrite E0. symmetry. apply agree. exact wall_pt.
  - destruct ray_clear as (r & Hr & H). exists r. split; [exact Hr|]. intros t Ht. destruct (H t Ht) as [Ct Pt].
    rewrite field_clear by auto. split; intros L; [apply outside_in|apply outside_out]; rewrite mod_ray by lra; unfold rb in *; lra.
  - split; [exact A|]. split; [exact B|exact flux_balance].
Qed.
End Field.
