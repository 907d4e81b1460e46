From Coq Require Import Reals Lra Lia List String Ascii.
From Verif Require Import Base Compass_Model Compass_Spec.
From Verif Require GFun_Model.
Import ListNotations.
Local Open Scope string_scope.
Local Open Scope R_scope.

Lemma halfway_angles a b : Rabs (a - b) < PI -> halfway (cos a, sin a) (cos b, sin b) (cos ((a + b) / 2), sin ((a + b) / 2)).
Proof.
  intros H. split.
  - cbn [fst snd]. pose proof (sin2_cos2 ((a + b) / 2)) as X. unfold Rsqr in X. lra.
  - exists (2 * cos ((a - b) / 2)). split.
    + assert (0 < cos ((a - b) / 2)); [|lra]. apply Rabs_def2 in H. apply cos_gt_0; lra.
    + cbn [fst snd]. set (p := (a + b) / 2). set (q := (a - b) / 2).
      assert (Ea : a = p + q) by (unfold p, q; field). assert (Eb : b = p - q) by (unfold p, q; field). clearbody p q. subst a b.
      rewrite cos_plus, cos_minus, sin_plus, sin_minus. split; ring.
Qed.

Definition aims (s : string) (a : R) : Prop := points s (cos a, sin a).

Lemma aims_half c s a b : letter c = Some (cos a, sin a) -> aims s b -> Rabs (a - b) < PI -> aims (String c s) ((a + b) / 2).
Proof. intros L P H. exact (points_half c s _ _ _ L P (halfway_angles a b H)). Qed.

Lemma is_E : letter "E" = Some (cos 0, sin 0). Proof. cbn. rewrite cos_0, sin_0. reflexivity. Qed.
Lemma is_E' : letter "E" = Some (cos (2 * PI), sin (2 * PI)). Proof. cbn. rewrite cos_2PI, sin_2PI. reflexivity. Qed.
Lemma is_N : letter "N" = Some (cos (PI / 2), sin (PI / 2)). Proof. cbn. rewrite cos_PI2, sin_PI2. reflexivity. Qed.
Lemma is_W : letter "W" = Some (cos PI, sin PI). Proof. cbn. rewrite cos_PI, sin_PI. reflexivity. Qed.
Lemma is_S : letter "S" = Some (cos (3 * (PI / 2)), sin (3 * (PI / 2))).
Proof. cbn. rewrite cos_3PI2, sin_3PI2. reflexivity. Qed.

Lemma aims_letter c a : letter c = Some (cos a, sin a) -> aims (String c "") a.
Proof. intros L. exact (points_letter c _ L). Qed.

Lemma near a b : - PI < a - b -> a - b < PI -> Rabs (a - b) < PI.
Proof. intros. apply Rabs_def1; lra. Qed.

Lemma aims_cases d t : cardinal_point d = Some t -> aims (GFun_Model.upper d) t.
Proof.
  pose proof PI_RGT_0 as Pi. unfold cardinal_point. set (u := GFun_Model.upper d). clearbody u. unfold accepted_inputs. cbn [compass].
  assert (NE : aims "NE" ((PI / 2 + 0) / 2)) by (apply aims_half; [exact is_N|apply aims_letter, is_E|apply near; lra]).
  assert (NW : aims "NW" ((PI / 2 + PI) / 2)) by (apply aims_half; [exact is_N|apply aims_letter, is_W|apply near; lra]).
  assert (SW : aims "SW" ((3 * (PI / 2) + PI) / 2)) by (apply aims_half; [exact is_S|apply aims_letter, is_W|apply near; lra]).
  assert (SE : aims "SE" ((3 * (PI / 2) + 2 * PI) / 2)) by (apply aims_half; [exact is_S|apply aims_letter, is_E'|apply near; lra]).
  Ltac at_ t L := match goal with |- aims ?s ?x => replace x with t by (cbn; field); exact L end.
  repeat match goal with |- context [String.eqb u ?x] => destruct (String.eqb_spec u x) as [->|]; [intros Q; injection Q as <-|] end; [..|discriminate].
  - at_ 0 (aims_letter _ _ is_E).
  - at_ ((0 + (PI / 2 + 0) / 2) / 2) (aims_half _ _ _ _ is_E NE ltac:(apply near; lra)).
  - at_ ((PI / 2 + 0) / 2) NE.
  - at_ ((PI / 2 + (PI / 2 + 0) / 2) / 2) (aims_half _ _ _ _ is_N NE ltac:(apply near; lra)).
  - at_ (PI / 2) (aims_letter _ _ is_N).
  - at_ ((PI / 2 + (PI / 2 + PI) / 2) / 2) (aims_half _ _ _ _ is_N NW ltac:(apply near; lra)).
  - at_ ((PI / 2 + PI) / 2) NW.
  - at_ ((PI + (PI / 2 + PI) / 2) / 2) (aims_half _ _ _ _ is_W NW ltac:(apply near; lra)).
  - at_ PI (aims_letter _ _ is_W).
  - at_ ((PI + (3 * (PI / 2) + PI) / 2) / 2) (aims_half _ _ _ _ is_W SW ltac:(apply near; lra)).
  - at_ ((3 * (PI / 2) + PI) / 2) SW.
  - at_ ((3 * (PI / 2) + (3 * (PI / 2) + PI) / 2) / 2) (aims_half _ _ _ _ is_S SW ltac:(apply near; lra)).
  - at_ (3 * (PI / 2)) (aims_letter _ _ is_S).
  - at_ ((3 * (PI / 2) + (3 * (PI / 2) + 2 * PI) / 2) / 2) (aims_half _ _ _ _ is_S SE ltac:(apply near; lra)).
  - at_ ((3 * (PI / 2) + 2 * PI) / 2) SE.
  - at_ ((2 * PI + (3 * (PI / 2) + 2 * PI) / 2) / 2) (aims_half _ _ _ _ is_E' SE ltac:(apply near; lra)).
Qed.

Lemma compass_nth i l d t : compass i l d = Some t -> exists k, (k < length l)%nat /\ nth k l "" = d /\ t = INR (i + k) * PI / 8.
Proof.
  revert i. induction l as [|x l IH]; intros i; cbn [compass]; [discriminate|].
  destruct (String.eqb_spec d x) as [->|N].
  - intros Q. injection Q as <-. exists O. split; [cbn; lia|]. split; [reflexivity|]. rewrite Nat.add_0_r. reflexivity.
  - intros Q. destruct (IH (S i) Q) as (k & Hk & Hd & Ht). exists (S k). split; [cbn; lia|]. split; [exact Hd|]. rewrite Ht. f_equal. f_equal. f_equal. lia.
Qed.

Lemma compass_in i l d : compass i l d <> None <-> In d l.
Proof.
  revert i. induction l as [|x l IH]; intros i; cbn [compass]; [cbn; tauto|].
  destruct (String.eqb_spec d x) as [->|N]; [cbn; split; [auto|discriminate]|]. rewrite IH. cbn. intuition congruence.
Qed.

Lemma letter_cases c : letter c <> None -> c = "E"%char \/ c = "N"%char \/ c = "W"%char \/ c = "S"%char.
Proof.
  intros H. destruct c as [b0 b1 b2 b3 b4 b5 b6 b7].
  destruct b0, b1, b2, b3, b4, b5, b6, b7; cbn in H; try (exfalso; apply H; reflexivity); auto.
Qed.

Lemma accepted_use d : In d accepted_inputs <-> in_use d.
Proof.
  split.
  - cbn [accepted_inputs In]. unfold in_use, two_letters. intros H.
    repeat (destruct H as [<-|H]); [..|destruct H];
    first [ left; eexists; split; [|reflexivity]; discriminate
          | right; left; do 2 eexists; split; [|reflexivity]; auto
          | right; right; do 3 eexists; split; [|split; [|reflexivity]]; auto ].
  - intros [(c & L & ->)|[(a & b & [A B] & ->)|(c & a & b & [A B] & Cc & ->)]].
    + destruct (letter_cases c L) as [->|[->|[->| ->]]]; cbn; tauto.
    + destruct A as [->| ->], B as [->| ->]; cbn; tauto.
    + destruct Cc as [->| ->]; destruct A as [->| ->], B as [->| ->]; cbn; tauto.
Qed.
