(** Positive kernels over finitely many points: products with exponentials. *)
From Coq Require Import Reals Lra Lia.
From Coquelicot Require Import Coquelicot.
From Verif Require Import Base.
Local Open Scope R_scope.

Definition form (n : nat) (K : nat -> nat -> R) (x : nat -> R) : R :=
  sumn n (fun i => sumn n (fun j => x i * x j * K i j)).
Definition psd (n : nat) (K : nat -> nat -> R) : Prop := forall x, 0 <= form n K x.

Lemma form_ext n K L x : (forall i j, (i < n)%nat -> (j < n)%nat -> K i j = L i j) -> form n K x = form n L x.
Proof. intros E. apply sumn_ext; intros i Hi. apply sumn_ext; intros j Hj. rewrite E; auto. Qed.

Lemma psd_ext n K L : (forall i j, (i < n)%nat -> (j < n)%nat -> K i j = L i j) -> psd n K -> psd n L.
Proof. intros E P x. rewrite <- (form_ext n K L x E). apply P. Qed.

Lemma form_plus n K L x : form n (fun i j => K i j + L i j) x = form n K x + form n L x.
Proof.
  unfold form. rewrite <- sumn_plus. apply sumn_ext; intros i _. rewrite <- sumn_plus. apply sumn_ext; intros j _. ring.
Qed.

Lemma form_scal n c K x : form n (fun i j => c * K i j) x = c * form n K x.
Proof.
  unfold form. rewrite <- sumn_scal. apply sumn_ext; intros i _. rewrite <- sumn_scal. apply sumn_ext; intros j _. ring.
Qed.

Lemma form_minus n K L x : form n (fun i j => K i j - L i j) x = form n K x - form n L x.
Proof.
  unfold form. rewrite <- sumn_minus. apply sumn_ext; intros i _. rewrite <- sumn_minus. apply sumn_ext; intros j _. ring.
Qed.

Lemma psd_plus n K L : psd n K -> psd n L -> psd n (fun i j => K i j + L i j).
Proof. intros P Q x. rewrite form_plus. pose proof (P x); pose proof (Q x); lra. Qed.

Lemma psd_scal n c K : 0 <= c -> psd n K -> psd n (fun i j => c * K i j).
Proof. intros C P x. rewrite form_scal. apply Rmult_le_pos; auto. Qed.

Lemma psd_zero n : psd n (fun _ _ => 0).
Proof. intros x. unfold form. rewrite sumn_zero; [lra|]. intros. apply sumn_zero; intros. ring. Qed.

Lemma psd_rank n K u : psd n K -> psd n (fun i j => K i j * (u i * u j)).
Proof.
  intros P x. replace (form n (fun i j => K i j * (u i * u j)) x) with (form n K (fun i => x i * u i)); [apply P|].
  unfold form. apply sumn_ext; intros i _. apply sumn_ext; intros j _. ring.
Qed.

Lemma psd_ones n : psd n (fun _ _ => 1).
Proof.
  intros x. replace (form n (fun _ _ => 1) x) with ((sumn n x) ^ 2); [nra|].
  unfold form. replace (sumn n x ^ 2) with (sumn n x * sumn n x) by ring. rewrite <- sumn_scal_r. apply sumn_ext; intros i _.
  rewrite <- sumn_scal. apply sumn_ext; intros j _. ring.
Qed.

Lemma lim_sumn n (u : nat -> nat -> R) l : (forall i, (i < n)%nat -> is_lim_seq (fun m => u m i) (Finite (l i))) ->
  is_lim_seq (fun m => sumn n (u m)) (Finite (sumn n l)).
Proof.
  induction n; intros Hl; cbn; [apply is_lim_seq_const|].
  apply (is_lim_seq_plus' (fun m => sumn n (u m)) (fun m => u m n)); [apply IHn; intros; apply Hl; lia|apply Hl; lia].
Qed.

Lemma psd_lim n (K : nat -> nat -> nat -> R) L : (forall m, psd n (K m)) ->
  (forall i j, (i < n)%nat -> (j < n)%nat -> is_lim_seq (fun m => K m i j) (Finite (L i j))) -> psd n L.
Proof.
  intros P Hl x.
  assert (E : is_lim_seq (fun m => form n (K m) x) (Finite (form n L x))).
  { unfold form. apply (lim_sumn n (fun m i => sumn n (fun j => x i * x j * K m i j))). intros i Hi.
    apply (lim_sumn n (fun m j => x i * x j * K m i j)). intros j Hj.
    apply (is_lim_seq_scal_l (fun m => K m i j) (x i * x j) (Finite (L i j))). auto. }
  assert (Q : Rbar_le (Finite 0) (Finite (form n L x))).
  { apply (is_lim_seq_le (fun _ => 0) (fun m => form n (K m) x)); [intros; apply P|apply is_lim_seq_const|auto]. }
  exact Q.
Qed.

Lemma lim_exp z : is_lim_seq (fun m => sumn m (fun k => z ^ k / INR (fact k))) (Finite (exp z)).
Proof.
  apply is_lim_seq_incr_1.
  apply (is_lim_seq_ext (fun m => sum_f_R0 (fun k => / INR (fact k) * z ^ k) m)).
  - intros m. induction m; cbn -[fact INR pow]; [cbn; field|]. rewrite IHm. cbn -[fact INR pow]. unfold Rdiv. ring.
  - apply is_lim_seq_Reals. unfold exp. destruct (exist_exp z) as [l Hl]. cbn. unfold exp_in, infinite_sum in Hl. exact Hl.
Qed.

(* the kernel of several weighted points per index, in one factor of an exponential *)
Lemma psd_exps n N K (w a : nat -> nat -> R) c : 0 <= c -> psd n K ->
  psd n (fun i j => K i j * sumn N (fun p => sumn N (fun q => w i p * w j q * exp (c * a i p * a j q)))).
Proof.
  intros C P.
  apply (psd_lim n (fun m i j => K i j * sumn N (fun p => sumn N (fun q => w i p * w j q * sumn m (fun k => (c * a i p * a j q) ^ k / INR (fact k)))))).
  - intros m. induction m.
    + apply (psd_ext n (fun _ _ => 0)); [|apply psd_zero]. intros i j _ _. rewrite sumn_zero; [ring|]. intros. apply sumn_zero; intros. cbn. ring.
    + set (u := fun i => sumn N (fun p => w i p * a i p ^ m)).
      apply (psd_ext n (fun i j => K i j * sumn N (fun p => sumn N (fun q => w i p * w j q * sumn m (fun k => (c * a i p * a j q) ^ k / INR (fact k))))
                                   + c ^ m / INR (fact m) * (K i j * (u i * u j)))).
      * intros i j _ _. cbn [sumn]. unfold u.
        assert (E : sumn N (fun p => w i p * a i p ^ m) * sumn N (fun p => w j p * a j p ^ m)
                    = sumn N (fun p => sumn N (fun q => w i p * w j q * (a i p ^ m * a j q ^ m)))).
        { rewrite <- sumn_scal_r. apply sumn_ext; intros p _. rewrite <- sumn_scal. apply sumn_ext; intros q _. ring. }
        rewrite E.
        assert (E2 : sumn N (fun p => sumn N (fun q => w i p * w j q * (sumn m (fun k => (c * a i p * a j q) ^ k / INR (fact k)) + (c * a i p * a j q) ^ m / INR (fact m))))
           = sumn N (fun p => sumn N (fun q => w i p * w j q * sumn m (fun k => (c * a i p * a j q) ^ k / INR (fact k))))
             + c ^ m / INR (fact m) * sumn N (fun p => sumn N (fun q => w i p * w j q * (a i p ^ m * a j q ^ m)))).
        { rewrite <- sumn_scal, <- sumn_plus. apply sumn_ext; intros p _. rewrite <- sumn_scal, <- sumn_plus. apply sumn_ext; intros q _.
          rewrite !Rpow_mult_distr. unfold Rdiv. ring. }
        rewrite E2. ring.
      * apply psd_plus; [exact IHm|]. apply psd_scal; [|apply psd_rank; auto].
        apply Rmult_le_pos; [apply pow_le; auto|]. left. apply Rinv_0_lt_compat, lt_0_INR, lt_O_fact.
  - intros i j _ _. 
    apply (is_lim_seq_scal_l (fun m => sumn N (fun p => sumn N (fun q => w i p * w j q * sumn m (fun k => (c * a i p * a j q) ^ k / INR (fact k)))))
             (K i j) (Finite _)).
    apply (lim_sumn N (fun m p => sumn N (fun q => w i p * w j q * sumn m (fun k => (c * a i p * a j q) ^ k / INR (fact k))))). intros p _.
    apply (lim_sumn N (fun m q => w i p * w j q * sumn m (fun k => (c * a i p * a j q) ^ k / INR (fact k)))). intros q _.
    apply (is_lim_seq_scal_l (fun m => sumn m (fun k => (c * a i p * a j q) ^ k / INR (fact k))) (w i p * w j q) (Finite _)).
    apply lim_exp.
Qed.

(* several weighted points per index, through a Gaussian function of their differences *)
Lemma psd_gauss n N K (w a : nat -> nat -> R) c : 0 <= c -> psd n K ->
  psd n (fun i j => K i j * sumn N (fun p => sumn N (fun q => w i p * w j q * exp (- c * (a i p - a j q) ^ 2)))).
Proof.
  intros C P. apply (psd_ext n (fun i j => K i j * sumn N (fun p => sumn N (fun q =>
    (w i p * exp (- c * a i p ^ 2)) * (w j q * exp (- c * a j q ^ 2)) * exp ((2 * c) * a i p * a j q))))).
  - intros i j _ _. f_equal. apply sumn_ext; intros p _. apply sumn_ext; intros q _.
    replace (- c * (a i p - a j q) ^ 2) with (- c * a i p ^ 2 + - c * a j q ^ 2 + 2 * c * a i p * a j q) by ring.
    rewrite !exp_plus. ring.
  - exact (psd_exps n N K (fun i p => w i p * exp (- c * a i p ^ 2)) a (2 * c) ltac:(lra) P).
Qed.

Lemma psd_gauss1 n K (a : nat -> R) c : 0 <= c -> psd n K -> psd n (fun i j => K i j * exp (- c * (a i - a j) ^ 2)).
Proof.
  intros C P. apply (psd_ext n (fun i j => K i j * sumn 1 (fun p => sumn 1 (fun q => 1 * 1 * exp (- c * (a i - a j) ^ 2))))).
  - intros i j _ _. cbn [sumn]. ring.
  - exact (psd_gauss n 1 K (fun _ _ => 1) (fun i _ => a i) c C P).
Qed.
