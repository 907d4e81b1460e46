(** Proofs about the names of the fluids. *)
From Coq Require Import String Ascii List Reals Lra Lia Arith.
From Verif Require Import Media_Model Media_Spec.
Import ListNotations.

Lemma upper_same a b : upper_char a = upper_char b <-> same_letter a b.
Proof.
  unfold upper_char, same_letter.
  assert (Ba := nat_ascii_bounded a). assert (Bb := nat_ascii_bounded b).
  set (x := nat_of_ascii a) in *. set (y := nat_of_ascii b) in *.
  assert (Ex : a = ascii_of_nat x) by (unfold x; rewrite ascii_nat_embedding; reflexivity).
  assert (Ey : b = ascii_of_nat y) by (unfold y; rewrite ascii_nat_embedding; reflexivity).
  assert (I : forall p q, p < 256 -> q < 256 -> ascii_of_nat p = ascii_of_nat q -> p = q).
  { intros p q P Q E. rewrite <- (nat_ascii_embedding p P), <- (nat_ascii_embedding q Q), E. reflexivity. }
  split.
  - destruct (Nat.leb_spec 97 x), (Nat.leb_spec x 122), (Nat.leb_spec 97 y), (Nat.leb_spec y 122); cbn [andb];
      intros E; rewrite ?Ex, ?Ey in E |- *; apply I in E; try lia;
      (left; rewrite ?Ex, ?Ey; f_equal; lia) || (right; lia).
  - intros [->|[[H E]|[H E]]]; [reflexivity| |].
    + destruct (Nat.leb_spec 97 x), (Nat.leb_spec x 122), (Nat.leb_spec 97 y), (Nat.leb_spec y 122); cbn [andb]; try lia.
      all: rewrite Ex; f_equal; lia.
    + destruct (Nat.leb_spec 97 x), (Nat.leb_spec x 122), (Nat.leb_spec 97 y), (Nat.leb_spec y 122); cbn [andb]; try lia.
      all: rewrite Ey; f_equal; lia.
Qed.

Lemma upper_word s : forall t, upper s = upper t <-> same_word s t.
Proof.
  induction s as [|a s IH]; intros [|b t]; cbn; try (split; [discriminate|tauto]).
  - tauto.
  - rewrite <- upper_same, <- IH. split; [intros E; injection E; auto|intros [-> ->]; reflexivity].
Qed.

Lemma choose_upper lib s t p : upper s = upper t -> choose lib s p = choose lib t p.
Proof. unfold choose. intros ->. reflexivity. Qed.

Lemma choose_none lib s p : choose lib s p = None <-> ~ exists n, In n known_names /\ same_word s n.
Proof.
  unfold choose.
  assert (K : forall n, same_word s n <-> String.eqb (upper s) (upper n) = true)
    by (intros n; rewrite String.eqb_eq, upper_word; reflexivity).
  assert (M : map upper known_names = ["WATER"; "MPG"; "PROPYLENEGLYCOL"; "MEG"; "ETHYLENEGLYCOL"; "MMA"; "METHYLALCOHOL";
     "MEA"; "ETHYLALCOHOL"]%string) by (vm_compute; reflexivity).
  assert (E : (exists n, In n known_names /\ same_word s n) <-> existsb (String.eqb (upper s)) (map upper known_names) = true).
  { rewrite existsb_exists. split.
    - intros [n [A B]]. exists (upper n). split; [apply in_map; exact A|apply K; exact B].
    - intros [v [A B]]. apply in_map_iff in A. destruct A as [n [<- A]]. exists n. split; [exact A|apply K; exact B]. }
  rewrite E, M. cbn [existsb].
  repeat (match goal with |- context [String.eqb (upper s) ?x] => destruct (String.eqb (upper s) x) end; cbn [orb];
     try (split; [discriminate|intros H; exfalso; apply H; reflexivity])).
  split; [intros _; discriminate|reflexivity].
Qed.
