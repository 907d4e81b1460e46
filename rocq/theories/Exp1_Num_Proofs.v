(* Bounds of the formula of the exponential integral in fixed-point arithmetic: a table of
   cells between two arguments. *)
From Coq Require Import Reals Lra Lia List Bool Psatz ZArith.
From Coquelicot Require Import Coquelicot.
From Verif Require Import Base FLS_Model FLS_Spec Approx_Spec Approx_Num_Proofs Exp1_Model Exp1_Int_Proofs.
Local Open Scope R_scope.

(** * Intervals *)
Definition iv := (Z * Z)%type.
Definition N (i : iv) (x : R) : Prop := (0 <= fst i)%Z /\ Lo (fst i) x /\ Hi (snd i) x.

Lemma N_nonneg i x : N i x -> 0 <= x.
Proof. intros (A & B & _). unfold Lo in B. apply IZR_le in A. pose proof O1_pos. apply Rmult_le_reg_r with O1; lra. Qed.
Lemma N_pos i x : N i x -> (0 < fst i)%Z -> 0 < x.
Proof. intros (A & B & _) P. unfold Lo in B. apply IZR_lt in P. pose proof O1_pos. apply Rmult_lt_reg_r with O1; lra. Qed.
Lemma N_bounds i x : N i x -> IZR (fst i) / O1 <= x <= IZR (snd i) / O1.
Proof.
  intros (_ & A & B). unfold Lo, Hi in *. pose proof O1_pos. split; apply Rmult_le_reg_r with O1; auto.
  - replace (IZR (fst i) / O1 * O1) with (IZR (fst i)) by (field; lra). lra.
  - replace (IZR (snd i) / O1 * O1) with (IZR (snd i)) by (field; lra). lra.
Qed.
Lemma N_intro i x : (0 <= fst i)%Z -> IZR (fst i) / O1 <= x -> x <= IZR (snd i) / O1 -> N i x.
Proof.
  intros A B C. pose proof O1_pos. split; [auto|]. unfold Lo, Hi. split.
  - replace (IZR (fst i)) with (IZR (fst i) / O1 * O1) by (field; lra). apply Rmult_le_compat_r; lra.
  - replace (IZR (snd i)) with (IZR (snd i) / O1 * O1) by (field; lra). apply Rmult_le_compat_r; lra.
Qed.

Definition iadd (i j : iv) : iv := (fst i + fst j, snd i + snd j)%Z.
Definition isub (i j : iv) : iv := (Z.max 0 (fst i - snd j), snd i - fst j)%Z.
Definition imul (i j : iv) : iv := (down (fst i * fst j), down (snd i * snd j) + 1)%Z.
Definition iinv (i : iv) : iv := (one * one / snd i, one * one / fst i + 1)%Z.
Definition i1 : iv := (one, one).

Lemma i1_ok : N i1 1.
Proof. split; [unfold i1, one; cbn; lia|]. unfold Lo, Hi, i1. cbn [fst snd]. lra. Qed.

Lemma iadd_ok i j x y : N i x -> N j y -> N (iadd i j) (x + y).
Proof.
  intros (A & B & C) (D & E & F). unfold N, iadd, Lo, Hi in *. cbn [fst snd]. rewrite !plus_IZR. split; [lia|]. split; lra.
Qed.
Lemma isub_ok i j x y : N i x -> N j y -> 0 <= x - y -> N (isub i j) (x - y).
Proof.
  intros (A & B & C) (D & E & F) P. unfold N, isub, Lo, Hi in *. cbn [fst snd]. rewrite !minus_IZR. split; [lia|]. split; [|lra].
  pose proof O1_pos. destruct (Z.max_spec 0 (fst i - snd j)) as [[_ ->]|[_ ->]]; [rewrite minus_IZR; lra|]. apply Rmult_le_pos; lra.
Qed.
Lemma isub_pos i j x y : N i x -> N j y -> (0 < fst (isub i j))%Z -> N (isub i j) (x - y).
Proof.
  intros X Y P. apply isub_ok; auto. destruct X as (A & B & C), Y as (D & E & F). unfold isub, Lo, Hi in *. cbn [fst snd] in P.
  assert (L : (snd j <= fst i)%Z) by lia. apply IZR_le in L. pose proof O1_pos. apply Rmult_le_reg_r with O1; lra.
Qed.
Lemma imul_ok i j x y : N i x -> N j y -> N (imul i j) (x * y).
Proof.
  intros X Y. pose proof (N_nonneg _ _ X) as x0. pose proof (N_nonneg _ _ Y) as y0.
  destruct X as (A & B & C), Y as (D & E & F). unfold N, imul, Lo, Hi in *. cbn [fst snd]. pose proof O1_pos as P.
  split; [apply down_nonneg; nia|]. replace (x * y * O1) with ((x * O1) * (y * O1) / O1) by (field; lra).
  apply IZR_le in A, D. assert (I : 0 < / O1) by (apply Rinv_0_lt_compat; auto). split.
  - eapply Rle_trans; [apply down_le|]. rewrite mult_IZR. apply Rmult_le_compat_r; [lra|]. apply Rmult_le_compat; lra.
  - eapply Rle_trans; [|apply down_gt]. rewrite mult_IZR. apply Rmult_le_compat_r; [lra|].
    apply Rmult_le_compat; [apply Rmult_le_pos; lra|apply Rmult_le_pos; lra|lra|lra].
Qed.
Lemma iinv_ok i x : N i x -> (0 < fst i)%Z -> N (iinv i) (/ x).
Proof.
  intros X P. pose proof (N_pos _ _ X P) as x0. destruct X as (A & B & C). unfold N, iinv, Lo, Hi in *. cbn [fst snd]. pose proof O1_pos as Q.
  assert (S : (0 < snd i)%Z) by (apply lt_IZR; apply IZR_lt in P; lra).
  split; [apply Z.div_pos; [unfold one; lia|auto]|]. apply IZR_lt in P.
  assert (xo : 0 < x * O1) by (apply Rmult_lt_0_compat; auto).
  replace (/ x * O1) with (O1 * O1 / (x * O1)) by (field; lra). split.
  - eapply Rle_trans; [apply div_le; auto|]. rewrite mult_IZR. apply Rmult_le_compat_l; [nra|]. apply Rinv_le_contravar; lra.
  - eapply Rle_trans; [|apply div_gt; apply lt_IZR; lra]. rewrite mult_IZR. apply Rmult_le_compat_l; [nra|]. apply Rinv_le_contravar; lra.
Qed.

(** exponentials *)
Definition iexpk (k : nat) (i : iv) : iv := (exp_lo k (snd i), exp_hi k (fst i)).
Notation iexpn := (iexpk 10).
Lemma iexpn_ok k i y : N i y -> N (iexpk k i) (exp (- y)).
Proof.
  intros X. pose proof (N_nonneg _ _ X) as y0. destruct X as (A & B & C). unfold N, iexpk. cbn [fst snd].
  destruct (exp_lo_ok k (snd i) y y0 C). split; [auto|]. split; [auto|]. apply exp_hi_ok; auto.
Qed.

Definition iexp (T : Z) : iv :=
  if (T <=? 0)%Z then iexpn (- T, - T)%Z
  else let e := iexpn (T, T) in if (0 <? fst e)%Z then iinv e else (1, 0)%Z.
Lemma iexp_ok T : (fst (iexp T) <=? snd (iexp T))%Z = true -> N (iexp T) (exp (IZR T / O1)).
Proof.
  pose proof O1_pos as P. unfold iexp. destruct (T <=? 0)%Z eqn:C.
  - intros _. apply Z.leb_le in C. replace (IZR T / O1) with (- (IZR (- T) / O1)) by (rewrite opp_IZR; field; lra).
    apply iexpn_ok. apply N_intro; cbn [fst snd]; [lia|lra|lra].
  - cbv zeta. apply Z.leb_gt in C. assert (X : N (iexpn (T, T)) (exp (- (IZR T / O1)))) by (apply iexpn_ok, N_intro; cbn [fst snd]; [lia|lra|lra]).
    destruct (0 <? fst (iexpn (T, T)))%Z eqn:D; [|cbn; discriminate]. intros _. apply Z.ltb_lt in D.
    replace (exp (IZR T / O1)) with (/ exp (- (IZR T / O1))) by (rewrite exp_Ropp, Rinv_inv; reflexivity). apply iinv_ok; auto.
Qed.

(** between two exponents *)
Definition iexpb (T U : Z) : iv * bool :=
  let a := iexp T in let b := iexp U in ((fst a, snd b), (fst a <=? snd a)%Z && (fst b <=? snd b)%Z).
Lemma iexpb_ok T U t : snd (iexpb T U) = true -> IZR T / O1 <= t -> t <= IZR U / O1 -> N (fst (iexpb T U)) (exp t).
Proof.
  unfold iexpb. cbn [fst snd]. intros C A B. apply andb_true_iff in C. destruct C as [C D].
  pose proof (iexp_ok T C) as X. pose proof (iexp_ok U D) as Y. destruct X as (X0 & X1 & _), Y as (_ & _ & Y1). pose proof O1_pos.
  split; [auto|]. unfold Lo, Hi in *. cbn [fst snd]. pose proof (exp_le _ _ A). pose proof (exp_le _ _ B). split; nra.
Qed.

(** halves, roots, hulls *)
Definition ihalf (i : iv) : iv := (fst i / 2, snd i / 2 + 1)%Z.
Lemma ihalf_ok i x : N i x -> N (ihalf i) (x / 2).
Proof.
  intros (A & B & C). unfold N, ihalf, Lo, Hi in *. cbn [fst snd]. split; [apply Z.div_pos; lia|].
  pose proof (div_le (fst i) 2 ltac:(lia)). pose proof (div_gt (snd i) 2 ltac:(lia)). split; lra.
Qed.
Lemma iroot_ok i j x : N i x -> (0 <= fst j)%Z -> (0 <= snd j)%Z -> (fst j * fst j <= fst i * one)%Z -> (snd i * one <= snd j * snd j)%Z -> N j (sqrt x).
Proof.
  intros X J0 J1 A B. pose proof (N_nonneg _ _ X) as x0. destruct X as (_ & L & U). unfold N, Lo, Hi in *. pose proof O1_pos as P.
  split; [auto|]. apply IZR_le in A, B, J0, J1. rewrite !mult_IZR in A, B.
  pose proof (sqrt_pos x) as s0. pose proof (sqrt_sqrt x x0) as s1. set (s := sqrt x) in *.
  assert (E : (s * O1) * (s * O1) = x * O1 * O1) by (rewrite <- s1; ring).
  assert (Q : 0 <= s * O1) by (apply Rmult_le_pos; lra).
  assert (x * O1 * O1 <= IZR (snd i) * O1) by (apply Rmult_le_compat_r; lra).
  assert (IZR (fst i) * O1 <= x * O1 * O1) by (apply Rmult_le_compat_r; lra).
  split; [destruct (Rle_dec (IZR (fst j)) (s * O1)); auto|destruct (Rle_dec (s * O1) (IZR (snd j))); auto]; exfalso; nra.
Qed.
Lemma N_sub i j x : N i x -> (fst j <= fst i)%Z -> (snd i <= snd j)%Z -> (0 <= fst j)%Z -> N j x.
Proof. intros (A & B & C) D E F. unfold N, Lo, Hi in *. apply IZR_le in D, E. split; [auto|]. split; lra. Qed.
Lemma N_between i j x y z : N i x -> N j y -> x <= z -> z <= y -> N (fst i, snd j) z.
Proof. intros (A & B & _) (_ & _ & D) E F. unfold N, Lo, Hi in *. cbn [fst snd]. pose proof O1_pos. split; [auto|]. split; nra. Qed.

(** * Constants *)
Definition irat (a b : Z) : iv := (a * one / b, a * one / b + 1)%Z.
Lemma irat_ok a b : (0 <= a)%Z -> (0 < b)%Z -> N (irat a b) (IZR a / IZR b).
Proof.
  intros A B. pose proof (IZR_lt _ _ B) as B'. unfold N, irat, Lo, Hi. cbn [fst snd]. split; [apply Z.div_pos; auto; unfold one; lia|].
  replace (IZR a / IZR b * O1) with (IZR (a * one) / IZR b) by (rewrite mult_IZR; field; lra). split; [apply div_le|apply div_gt]; auto.
Qed.

Definition cG : iv := Eval vm_compute in iexpn (irat 5772156649015329 10000000000000000).
Lemma cG_ok : N cG e_G.
Proof.
  unfold e_G, euler_gamma. change cG with (iexpn (irat 5772156649015329 10000000000000000)).
  apply iexpn_ok, irat_ok; lia.
Qed.
Definition cF : iv := Eval vm_compute in isub i1 cG.
Lemma cF_ok : N cF (1 - e_G).
Proof. change cF with (isub i1 cG). apply isub_pos; [apply i1_ok|apply cG_ok|reflexivity]. Qed.
Definition cFi : iv := Eval vm_compute in iinv cF.
Lemma cFi_ok : N cFi (/ (1 - e_G)).
Proof. change cFi with (iinv cF). apply iinv_ok; [apply cF_ok|reflexivity]. Qed.

Definition i2 : iv := Eval vm_compute in iadd i1 i1.
Lemma i2_ok : N i2 2.
Proof. change i2 with (iadd i1 i1). replace 2 with (1 + 1) by ring. apply iadd_ok; apply i1_ok. Qed.
Definition cH : iv := Eval vm_compute in isub i2 cG.
Lemma cH_ok : N cH (2 - e_G).
Proof. change cH with (isub i2 cG). apply isub_pos; [apply i2_ok|apply cG_ok|reflexivity]. Qed.
Definition ib2 : iv := Eval vm_compute in imul (imul i2 cF) (iinv (imul cG cH)).
Definition cb : iv := Eval vm_compute in (Z.sqrt (fst ib2 * one), Z.sqrt (snd ib2 * one) + 1)%Z.
Lemma cb_ok : N cb e_b.
Proof.
  apply iroot_ok with ib2; [|vm_compute; discriminate..].
  change ib2 with (imul (imul i2 cF) (iinv (imul cG cH))). unfold Rdiv. apply imul_ok; [apply imul_ok; [apply i2_ok|apply cF_ok]|].
  apply iinv_ok; [apply imul_ok; [apply cG_ok|apply cH_ok]|reflexivity].
Qed.
Definition i3 : iv := Eval vm_compute in irat 3 1.
Definition i6 : iv := Eval vm_compute in irat 6 1.
Definition i12 : iv := Eval vm_compute in irat 12 1.
Lemma small_ok n i : (0 <= n)%Z -> i = irat n 1 -> N i (IZR n).
Proof. intros H ->. replace (IZR n) with (IZR n / IZR 1) by (field; lra). apply irat_ok; auto; lia. Qed.
Definition ihn : iv := Eval vm_compute in imul cF (isub (iadd (imul cG cG) i12) (imul i6 cG)).
Definition ihd : iv := Eval vm_compute in imul (imul (imul i3 cG) (imul cH cH)) cb.
Definition ch : iv := Eval vm_compute in imul ihn (iinv ihd).
Lemma ch_ok : N ch e_hinf.
Proof.
  unfold e_hinf, Rdiv. change ch with (imul ihn (iinv ihd)). apply imul_ok.
  - change ihn with (imul cF (isub (iadd (imul cG cG) i12) (imul i6 cG))).
    replace ((1 - e_G) * (e_G ^ 2 - 6 * e_G + 12)) with ((1 - e_G) * (e_G * e_G + 12 - 6 * e_G)) by ring. apply imul_ok; [apply cF_ok|].
    apply isub_pos; [apply iadd_ok; [apply imul_ok; apply cG_ok|apply small_ok; [lia|reflexivity]]|apply imul_ok; [apply small_ok; [lia|reflexivity]|apply cG_ok]|reflexivity].
  - apply iinv_ok; [|reflexivity]. change ihd with (imul (imul (imul i3 cG) (imul cH cH)) cb).
    apply imul_ok; [|apply cb_ok]. apply imul_ok; [apply imul_ok; [apply small_ok; [lia|reflexivity]|apply cG_ok]|].
    replace ((2 - e_G) ^ 2) with ((2 - e_G) * (2 - e_G)) by ring. apply imul_ok; apply cH_ok.
Qed.
Definition ip2 : iv := Eval vm_compute in irat 31 26.
Definition cp : iv := Eval vm_compute in (Z.sqrt (fst ip2 * one), Z.sqrt (snd ip2 * one) + 1)%Z.
Lemma cp_ok : N cp (sqrt (31 / 26)).
Proof. apply iroot_ok with ip2; [|vm_compute; discriminate..]. change ip2 with (irat 31 26). apply irat_ok; lia. Qed.
Definition cq : iv := Eval vm_compute in irat 20 47.
Lemma cq_ok : N cq (20 / 47).
Proof. change cq with (irat 20 47). apply irat_ok; lia. Qed.
Definition cup : iv := Eval vm_compute in irat 101 100.
Lemma cup_ok : N cup (101 / 100).
Proof. change cup with (irat 101 100). apply irat_ok; lia. Qed.
Definition clo : iv := Eval vm_compute in irat 99 100.
Lemma clo_ok : N clo (99 / 100).
Proof. change clo with (irat 99 100). apply irat_ok; lia. Qed.

(** * One cell *)
Definition e_den (x : R) : R := e_G + (1 - e_G) * exp (- x / (1 - e_G)).
Definition near (x : R) : Prop := 0 < e_arg x /\ 99 / 100 * KE x * e_den x <= ln (e_arg x) <= 101 / 100 * KE x * e_den x.

Definition pow_lo (T : Z) : Z := down (Z.min (T * fst cp) (T * snd cp)).
Definition pow_hi (T : Z) : Z := (down (Z.max (T * fst cp) (T * snd cp)) + 1)%Z.

Definition harg (X S Q : iv) : iv :=
  let h := iadd (iinv (iadd i1 S)) (imul ch (isub i1 (iinv (iadd i1 (imul cq Q))))) in
  let B := iadd h (imul cb X) in
  isub (iadd i1 (imul cG (iinv X))) (imul cF (iinv (imul B B))).
Definition hsq (X S Q : iv) : iv :=
  let h := iadd (iinv (iadd i1 S)) (imul ch (isub i1 (iinv (iadd i1 (imul cq Q))))) in
  let B := iadd h (imul cb X) in imul B B.

Definition cell (Ta Tb : Z) (K : iv) : bool :=
  let X := iexpb Ta Tb in
  let S := iexpb (3 * Ta / 2) (3 * Tb / 2 + 1) in
  let Q := iexpb (pow_lo Ta) (pow_hi Tb) in
  let A := harg (fst X) (fst S) (fst Q) in
  let D := iadd cG (imul cF (iexpn (imul (fst X) cFi))) in
  let KD := imul K D in
  snd X && snd S && snd Q && (0 <? fst (fst X))%Z && (0 <? fst (hsq (fst X) (fst S) (fst Q)))%Z && (0 <? fst A)%Z &&
  (down (snd A * exp_hi 10 (fst (imul cup KD))) + 1 <=? one)%Z &&
  (one <=? down (fst A * exp_lo 10 (snd (imul clo KD))))%Z.

Lemma pow_lo_ok T t : IZR T / O1 <= t -> IZR (pow_lo T) / O1 <= t * sqrt (31 / 26).
Proof.
  intros H. pose proof O1_pos as P. pose proof cp_ok as C. pose proof (N_nonneg _ _ C) as c0. pose proof (N_bounds _ _ C) as [L U]. set (p := sqrt (31 / 26)) in *.
  apply Rle_trans with (IZR T / O1 * p); [|apply Rmult_le_compat_r; auto].
  apply Rle_trans with (IZR (Z.min (T * fst cp) (T * snd cp)) / O1 / O1).
  - apply Rmult_le_compat_r; [left; apply Rinv_0_lt_compat; auto|]. apply down_le.
  - assert (I : 0 < / O1) by (apply Rinv_0_lt_compat; auto).
    destruct (Z_le_dec 0 T) as [L0|L0].
    + apply Rle_trans with (IZR (T * fst cp) / O1 / O1).
      * apply Rmult_le_compat_r; [lra|]. apply Rmult_le_compat_r; [lra|]. apply IZR_le. lia.
      * rewrite mult_IZR. replace (IZR T * IZR (fst cp) / O1 / O1) with (IZR T / O1 * (IZR (fst cp) / O1)) by (field; lra).
        apply Rmult_le_compat_l; auto. apply Rmult_le_pos; [apply IZR_le; auto|lra].
    + apply Rle_trans with (IZR (T * snd cp) / O1 / O1).
      * apply Rmult_le_compat_r; [lra|]. apply Rmult_le_compat_r; [lra|]. apply IZR_le. lia.
      * rewrite mult_IZR. replace (IZR T * IZR (snd cp) / O1 / O1) with (IZR T / O1 * (IZR (snd cp) / O1)) by (field; lra).
        assert (IZR T / O1 <= 0) by (assert (IZR T <= 0) by (apply IZR_le; lia); unfold Rdiv; nra). nra.
Qed.
Lemma pow_hi_ok T t : t <= IZR T / O1 -> t * sqrt (31 / 26) <= IZR (pow_hi T) / O1.
Proof.
  intros H. pose proof O1_pos as P. pose proof cp_ok as C. pose proof (N_nonneg _ _ C) as c0. pose proof (N_bounds _ _ C) as [L U]. set (p := sqrt (31 / 26)) in *.
  apply Rle_trans with (IZR T / O1 * p); [apply Rmult_le_compat_r; auto|].
  apply Rle_trans with (IZR (Z.max (T * fst cp) (T * snd cp)) / O1 / O1).
  - assert (I : 0 < / O1) by (apply Rinv_0_lt_compat; auto).
    destruct (Z_le_dec 0 T) as [L0|L0].
    + apply Rle_trans with (IZR (T * snd cp) / O1 / O1).
      * rewrite mult_IZR. replace (IZR T * IZR (snd cp) / O1 / O1) with (IZR T / O1 * (IZR (snd cp) / O1)) by (field; lra).
        apply Rmult_le_compat_l; auto. apply Rmult_le_pos; [apply IZR_le; auto|lra].
      * apply Rmult_le_compat_r; [lra|]. apply Rmult_le_compat_r; [lra|]. apply IZR_le. lia.
    + apply Rle_trans with (IZR (T * fst cp) / O1 / O1).
      * rewrite mult_IZR. replace (IZR T * IZR (fst cp) / O1 / O1) with (IZR T / O1 * (IZR (fst cp) / O1)) by (field; lra).
        assert (IZR T / O1 <= 0) by (assert (IZR T <= 0) by (apply IZR_le; lia); unfold Rdiv; nra). nra.
      * apply Rmult_le_compat_r; [lra|]. apply Rmult_le_compat_r; [lra|]. apply IZR_le. lia.
  - apply Rmult_le_compat_r; [left; apply Rinv_0_lt_compat; auto|]. apply down_gt.
Qed.

Lemma x_sqrt t : exp t * sqrt (exp t) = exp (3 * t / 2).
Proof.
  replace (sqrt (exp t)) with (exp (t / 2)); [rewrite <- exp_plus; f_equal; field|].
  symmetry. apply sqrt_lem_1; [left; apply exp_pos|left; apply exp_pos|]. rewrite <- exp_plus. f_equal. field.
Qed.
Lemma x_power t p : Rpower (exp t) p = exp (t * p).
Proof. unfold Rpower. rewrite ln_exp. f_equal. ring. Qed.

Lemma hparts X S Q t : N X (exp t) -> N S (exp (3 * t / 2)) -> N Q (exp (t * sqrt (31 / 26))) ->
  N (hsq X S Q) ((e_h (exp t) + e_b * exp t) ^ 2).
Proof.
  intros HX HS HQ. unfold hsq. cbv zeta. replace ((e_h (exp t) + e_b * exp t) ^ 2) with ((e_h (exp t) + e_b * exp t) * (e_h (exp t) + e_b * exp t)) by ring.
  assert (B : N (iadd (iadd (iinv (iadd i1 S)) (imul ch (isub i1 (iinv (iadd i1 (imul cq Q)))))) (imul cb X)) (e_h (exp t) + e_b * exp t)).
  { apply iadd_ok; [|apply imul_ok; [apply cb_ok|auto]]. unfold e_h, e_q. rewrite x_sqrt, x_power.
    set (q := 20 / 47 * exp (t * sqrt (31 / 26))). assert (q0 : 0 < q) by (apply Rmult_lt_0_compat; [lra|apply exp_pos]).
    replace (1 / (1 + exp (3 * t / 2)) + e_hinf * q / (1 + q)) with (/ (1 + exp (3 * t / 2)) + e_hinf * (1 - / (1 + q)))
      by (pose proof (exp_pos (3 * t / 2)); field; lra).
    apply iadd_ok.
    - apply iinv_ok; [apply iadd_ok; [apply i1_ok|auto]|]. destruct HS as (HS & _). unfold iadd, i1, one. cbn [fst snd]. lia.
    - apply imul_ok; [apply ch_ok|]. assert (Hq : N (imul cq Q) q) by (apply imul_ok; [apply cq_ok|auto]). apply isub_ok; [apply i1_ok| |].
      + apply iinv_ok; [apply iadd_ok; [apply i1_ok|auto]|]. destruct Hq as (Hq & _). unfold iadd. cbn [fst snd]. unfold i1, one in *. cbn [fst] in *. lia.
      + replace (1 - / (1 + q)) with (q / (1 + q)) by (field; lra). left. apply Rdiv_lt_0_compat; lra. }
  apply imul_ok; exact B.
Qed.

Lemma cell_ok Ta Tb K t : cell Ta Tb K = true -> IZR Ta / O1 <= t -> t <= IZR Tb / O1 -> N K (KE (exp t)) -> near (exp t).
Proof.
  intros C A B HK. pose proof O1_pos as P. unfold cell in C. cbv zeta in C.
  set (X := iexpb Ta Tb) in *. set (Sx := iexpb (3 * Ta / 2) (3 * Tb / 2 + 1)) in *. set (Q := iexpb (pow_lo Ta) (pow_hi Tb)) in *.
  rewrite !andb_true_iff, !Z.ltb_lt, !Z.leb_le in C. destruct C as [[[[[[[C1 C2] C3] C4] C5] C6] C7] C8].
  assert (HX : N (fst X) (exp t)) by (apply iexpb_ok; auto).
  assert (HS : N (fst Sx) (exp (3 * t / 2))).
  { apply iexpb_ok; auto.
    - pose proof (div_le (3 * Ta) 2 ltac:(lia)) as D. rewrite mult_IZR in D.
      apply Rle_trans with (3 * (IZR Ta / O1) / 2); [|lra]. apply Rmult_le_reg_r with O1; auto.
      replace (IZR (3 * Ta / 2) / O1 * O1) with (IZR (3 * Ta / 2)) by (field; lra). replace (3 * (IZR Ta / O1) / 2 * O1) with (3 * IZR Ta / 2) by (field; lra). lra.
    - pose proof (div_gt (3 * Tb) 2 ltac:(lia)) as D. rewrite mult_IZR in D.
      apply Rle_trans with (3 * (IZR Tb / O1) / 2); [lra|]. apply Rmult_le_reg_r with O1; auto.
      replace (IZR (3 * Tb / 2 + 1) / O1 * O1) with (IZR (3 * Tb / 2 + 1)) by (field; lra). replace (3 * (IZR Tb / O1) / 2 * O1) with (3 * IZR Tb / 2) by (field; lra). lra. }
  assert (HQ : N (fst Q) (exp (t * sqrt (31 / 26)))) by (apply iexpb_ok; [auto|apply pow_lo_ok; auto|apply pow_hi_ok; auto]).
  pose proof (hparts _ _ _ _ HX HS HQ) as HB.
  assert (HA : N (harg (fst X) (fst Sx) (fst Q)) (e_arg (exp t))).
  { unfold e_arg, Rdiv. apply isub_pos; [| |exact C6].
    - apply iadd_ok; [apply i1_ok|]. apply imul_ok; [apply cG_ok|]. apply iinv_ok; auto.
    - apply imul_ok; [apply cF_ok|]. apply iinv_ok; auto. }
  assert (HD : N (iadd cG (imul cF (iexpn (imul (fst X) cFi)))) (e_den (exp t))).
  { apply iadd_ok; [apply cG_ok|]. apply imul_ok; [apply cF_ok|]. replace (- exp t / (1 - e_G)) with (- (exp t * / (1 - e_G))) by (unfold Rdiv; ring).
    apply iexpn_ok, imul_ok; [auto|apply cFi_ok]. }
  set (Ai := harg (fst X) (fst Sx) (fst Q)) in *. set (D := iadd cG (imul cF (iexpn (imul (fst X) cFi)))) in *.
  assert (HKD : N (imul K D) (KE (exp t) * e_den (exp t))) by (apply imul_ok; auto).
  assert (H1 : N (imul cup (imul K D)) (101 / 100 * (KE (exp t) * e_den (exp t)))) by (apply imul_ok; [apply cup_ok|auto]).
  assert (H2 : N (imul clo (imul K D)) (99 / 100 * (KE (exp t) * e_den (exp t)))) by (apply imul_ok; [apply clo_ok|auto]).
  rewrite <- !Rmult_assoc in H1, H2.
  pose proof (N_pos _ _ HA C6) as a0. split; [auto|].
  set (Y1 := 101 / 100 * KE (exp t) * e_den (exp t)) in *. set (Y2 := 99 / 100 * KE (exp t) * e_den (exp t)) in *. set (arg := e_arg (exp t)) in *.
  destruct HA as (A0 & A1 & A2). destruct H1 as (U0 & U1 & _). pose proof (N_nonneg _ _ H2) as y2. destruct H2 as (_ & _ & V1).
  pose proof (exp_hi_ok 10 _ _ U0 U1) as E1. destruct (exp_lo_ok 10 _ _ y2 V1) as [E20 E2]. unfold Lo, Hi in *.
  set (eh := exp_hi 10 (fst (imul cup (imul K D)))) in *. set (el := exp_lo 10 (snd (imul clo (imul K D)))) in *.
  pose proof (exp_pos (- Y1)) as p1. pose proof (exp_pos (- Y2)) as p2.
  assert (J : forall u v, 0 < u -> u <= v -> ln u <= ln v) by (intros u v u0 [uv| ->]; [left; apply ln_increasing; auto|right; auto]).
  split.
  - rewrite <- (ln_exp Y2). apply J; [apply exp_pos|]. pose proof (exp_cancel Y2) as X2.
    apply IZR_le in C8. pose proof (down_le (fst Ai * el)) as D1. rewrite mult_IZR in D1. apply IZR_le in A0, E20.
    assert (IZR (fst Ai) * IZR el <= (arg * O1) * (exp (- Y2) * O1)) by (apply Rmult_le_compat; auto).
    assert (O1 * O1 <= arg * O1 * (exp (- Y2) * O1)).
    { apply Rle_trans with (IZR (fst Ai) * IZR el); auto. apply Rmult_le_reg_r with (/ O1); [apply Rinv_0_lt_compat; auto|]. rewrite Rmult_assoc, Rinv_r by lra. unfold Rdiv in D1. lra. }
    assert (1 <= arg * exp (- Y2)) by (apply Rmult_le_reg_r with (O1 * O1); [apply Rmult_lt_0_compat; auto|lra]).
    apply Rmult_le_reg_r with (exp (- Y2)); auto. lra.
  - rewrite <- (ln_exp Y1). apply J; [auto|]. pose proof (exp_cancel Y1) as X1.
    apply IZR_le in C7. pose proof (down_gt (snd Ai * eh)) as D1. rewrite mult_IZR in D1.
    assert ((arg * O1) * (exp (- Y1) * O1) <= IZR (snd Ai) * IZR eh).
    { apply Rmult_le_compat; auto; apply Rmult_le_pos; lra. }
    assert (arg * O1 * (exp (- Y1) * O1) <= O1 * O1).
    { apply Rle_trans with (IZR (snd Ai) * IZR eh); auto. apply Rmult_le_reg_r with (/ O1); [apply Rinv_0_lt_compat; auto|]. rewrite (Rmult_assoc O1), Rinv_r by lra. unfold Rdiv in D1. lra. }
    assert (arg * exp (- Y1) <= 1) by (apply Rmult_le_reg_r with (O1 * O1); [apply Rmult_lt_0_compat; auto|lra]).
    apply Rmult_le_reg_r with (exp (- Y1)); auto. lra.
Qed.

(** * All cells *)
Definition tau : Z := 1476395.
Definition cr : iv := Eval vm_compute in isub (iexp tau) i1.
Lemma cr_ok : N cr (exp (IZR tau / O1) - 1).
Proof. change cr with (isub (iexp tau) i1). apply isub_pos; [apply iexp_ok; reflexivity|apply i1_ok|reflexivity]. Qed.
Definition cn : iv := Eval vm_compute in isub i1 (iexpn (tau, tau)).
Lemma cn_ok : N cn (1 - exp (- (IZR tau / O1))).
Proof. change cn with (isub i1 (iexpn (tau, tau))). apply isub_pos; [apply i1_ok|apply iexpn_ok, N_intro; cbn [fst snd]; [unfold tau; lia|lra|lra]|reflexivity]. Qed.
Definition cm : iv := Eval vm_compute in imul (imul i2 cr) (iinv (iadd i2 cr)).
Lemma cm_ok : N cm (2 * (exp (IZR tau / O1) - 1) / (2 + (exp (IZR tau / O1) - 1))).
Proof.
  change cm with (imul (imul i2 cr) (iinv (iadd i2 cr))). apply imul_ok; [apply imul_ok; [apply i2_ok|apply cr_ok]|].
  apply iinv_ok; [apply iadd_ok; [apply i2_ok|apply cr_ok]|reflexivity].
Qed.

Definition first : option (Z * iv) :=
  let T := 620085903%Z in
  let x := iexp T in
  if (fst x <=? snd x)%Z && (0 <? fst x)%Z then
    Some (T, (fst (imul (iadd x i3) (iinv (iadd (iadd (imul x x) (imul (iadd i2 i2) x)) i2))),
              snd (imul (iadd x i1) (iinv (imul x (iadd x i2))))))
  else None.
Definition next (st : option (Z * iv)) : option (Z * iv) :=
  match st with
  | None => None
  | Some (T, K) =>
      let Ta := (T - tau)%Z in
      let a := iexp Ta in
      let d := imul a cr in
      let e := iexpk 4 d in
      let eK := imul e K in
      let K' := (fst (iadd eK (imul cm (iexpk 4 (ihalf d)))), snd (iadd eK (ihalf (iadd cr (imul cn e))))) in
      if (fst a <=? snd a)%Z && cell Ta T (fst K, snd K') then Some (Ta, K') else None
  end.
Definition good (st : option (Z * iv)) : Prop :=
  match st with
  | None => True
  | Some (T, K) => N K (KE (exp (IZR T / O1))) /\ forall t, IZR T / O1 <= t -> t < IZR 620085903 / O1 -> near (exp t)
  end.

Lemma first_good : good first.
Proof.
  unfold first. cbv zeta. set (x := iexp 620085903). destruct (_ && _)%bool eqn:C; [|exact I]. apply andb_true_iff in C. destruct C as [C1 C2]. apply Z.ltb_lt in C2.
  pose proof (iexp_ok _ C1) as HX. fold x in HX. unfold good. set (X := exp (IZR 620085903 / O1)) in *. split; [|intros; lra].
  pose proof (N_pos _ _ HX C2) as x0. pose proof HX as (_ & _ & _).
  refine (N_between (imul (iadd x i3) (iinv (iadd (iadd (imul x x) (imul (iadd i2 i2) x)) i2))) (imul (iadd x i1) (iinv (imul x (iadd x i2)))) _ _ _ _ _ (KE_lower X x0) (KE_upper X x0)).
  - apply imul_ok; [apply iadd_ok; [auto|apply small_ok; [lia|reflexivity]]|].
    assert (HD : N (iadd (iadd (imul x x) (imul (iadd i2 i2) x)) i2) (X ^ 2 + 4 * X + 2)).
    { replace (X ^ 2 + 4 * X + 2) with (X * X + (2 + 2) * X + 2) by ring.
      apply iadd_ok; [|apply i2_ok]. apply iadd_ok; [apply imul_ok; auto|]. apply imul_ok; [apply iadd_ok; apply i2_ok|auto]. }
    apply iinv_ok; [auto|]. unfold x. vm_cast_no_check (eq_refl Lt).
  - apply imul_ok; [apply iadd_ok; [auto|apply i1_ok]|]. apply iinv_ok; [apply imul_ok; [auto|apply iadd_ok; [auto|apply i2_ok]]|]. unfold x. vm_cast_no_check (eq_refl Lt).
Qed.

Lemma next_good st : good st -> good (next st).
Proof.
  destruct st as [[T K]|]; [|auto]. intros [HK HN]. pose proof O1_pos as P. unfold next. cbv zeta.
  set (Ta := (T - tau)%Z). set (a := iexp Ta). set (d := imul a cr). set (e := iexpk 4 d).
  set (k1 := iadd (imul e K) (imul cm (iexpk 4 (ihalf d)))). set (k2 := iadd (imul e K) (ihalf (iadd cr (imul cn e)))).
  destruct (_ && _)%bool eqn:C; [|exact I]. apply andb_true_iff in C. destruct C as [C1 C2]. unfold good.
  pose proof (iexp_ok _ C1) as Ha. fold a in Ha.
  set (ta := IZR Ta / O1) in *. set (tb := IZR T / O1) in *. set (h := IZR tau / O1).
  assert (Et : tb = ta + h) by (unfold tb, ta, h, Ta; rewrite minus_IZR; field; lra).
  assert (h0 : 0 < h) by (unfold h, tau, one; lra). pose proof (exp_pos ta) as a0. set (r := exp h - 1).
  assert (r0 : 0 <= r) by (unfold r; pose proof (exp_ineq1 h ltac:(lra)); lra).
  pose proof (KE_step (exp ta) r a0 r0) as [L U]. cbv zeta in L, U.
  assert (Eb : exp ta * (1 + r) = exp tb) by (rewrite Et, exp_plus; unfold r; ring). rewrite Eb in L, U.
  assert (Er : r / (1 + r) = 1 - exp (- h)).
  { unfold r. replace (1 + (exp h - 1)) with (exp h) by ring. rewrite exp_Ropp. pose proof (exp_pos h). field. lra. }
  rewrite Er in U.
  assert (Hd : N d (exp ta * r)) by (apply imul_ok; [auto|apply cr_ok]).
  assert (He : N e (exp (- (exp ta * r)))) by (apply iexpn_ok; auto).
  assert (H1 : N k1 (exp (- (exp ta * r)) * KE (exp tb) + 2 * r / (2 + r) * exp (- (exp ta * r / 2)))).
  { apply iadd_ok; [apply imul_ok; auto|]. apply imul_ok; [apply cm_ok|]. apply iexpn_ok, ihalf_ok; auto. }
  assert (H2 : N k2 (exp (- (exp ta * r)) * KE (exp tb) + (r + (1 - exp (- h)) * exp (- (exp ta * r))) / 2)).
  { apply iadd_ok; [apply imul_ok; auto|]. apply ihalf_ok. apply iadd_ok; [apply cr_ok|]. apply imul_ok; [apply cn_ok|auto]. }
  pose proof (N_between _ _ _ _ _ H1 H2 L U) as HKa. split; [exact HKa|].
  intros t A B. destruct (Rle_dec t tb) as [D|D]; [|apply HN; lra].
  cbn [snd] in C2. apply (cell_ok _ _ _ t C2); auto. apply (N_between K (fst k1, snd k2) (KE (exp tb)) (KE (exp ta))); auto.
  - apply KE_decr; [apply exp_pos|apply exp_le; auto].
  - apply KE_decr; [apply exp_pos|apply exp_le; auto].
Qed.

Definition table : option (Z * iv) := Pos.iter next first 1420.
Lemma table_eq : table = Some (-1476394997, (1326969628, 1331643786))%Z.
Proof. vm_cast_no_check (eq_refl (Some (-1476394997, (1326969628, 1331643786))%Z)). Qed.

Lemma table_good : good (Some (-1476394997, (1326969628, 1331643786))%Z).
Proof. rewrite <- table_eq. exact (Pos.iter_invariant 1420 (option (Z * iv)) next good next_good first first_good). Qed.

Lemma first_bounds : exp (IZR (-1476394997) / O1) <= 40870 / 10000000 /\ 40866 / 10000000 <= exp (IZR (-1476394997) / O1) /\ 10 < exp (IZR 620085903 / O1).
Proof.
  assert (A : N (1097007, 1097080)%Z (exp (IZR (-1476394997) / O1))).
  { apply (N_sub (iexp (-1476394997))); [apply iexp_ok; reflexivity|vm_compute; discriminate..]. }
  assert (B : N (2700000000, 3000000000)%Z (exp (IZR 620085903 / O1))).
  { apply (N_sub (iexp 620085903)); [apply iexp_ok; reflexivity|vm_compute; discriminate..]. }
  apply N_bounds in A, B. cbn [fst snd] in A, B. change O1 with 268435456 in *. split; [|split]; lra.
Qed.
