From Coq Require Import String.
From Verif Require Import Base LinAlg FLS_Model.
From Verif Require Import Bore_Model Net_Model Net_Spec Solve_Model Detailed_Model Detailed_Spec Detailed_Proofs Sim_Model Eq_Model GFun_Model GFun_Spec Prof_Model Prof_Spec.

(** ** Lists *)
Lemma all_some_F2 {A B} (f : A -> option B) l r : Net_Model.all_some (map f l) = Some r -> Forall2 (fun a b => f a = Some b) l r.
Proof.
  revert r. induction l as [|a l IH]; intros r E; cbn in E; [injection E as <-; constructor|].
  destruct (f a) as [b|] eqn:F; [|discriminate E]. destruct (Net_Model.all_some (map f l)) as [s|]; [|discriminate E].
  injection E as <-. constructor; auto.
Qed.

Lemma all_some_none {A B} (f : A -> option B) l a : In a l -> f a = None -> Net_Model.all_some (map f l) = None.
Proof.
  induction l as [|x l IH]; intros I F; [destruct I|]. cbn. destruct I as [->|I]; [now rewrite F|].
  destruct (f x); auto. now rewrite IH.
Qed.

Lemma F2_nth {A B} (P : A -> B -> Prop) l r k a b : Forall2 P l r -> nth_error l k = Some a -> nth_error r k = Some b -> P a b.
Proof.
  intros F. revert k. induction F; intros [|k] Ha Hb; cbn in *; try discriminate.
  - injection Ha as <-. injection Hb as <-. auto.
  - eauto.
Qed.

Lemma F2_in_r {A B} (P : A -> B -> Prop) l r b : Forall2 P l r -> In b r -> exists a, In a l /\ P a b.
Proof. intros F. induction F; intros I; [destruct I|]. destruct I as [->|I]; [exists x; cbn; auto|]. destruct (IHF I) as [a [Ia Pa]]. exists a. cbn. auto. Qed.

Lemma position_nth l i : In i l -> nth_error l (position l i) = Some i.
Proof.
  induction l as [|j l IH]; intros I; [destruct I|]. cbn. destruct (Nat.eqb j i) eqn:E; [apply Nat.eqb_eq in E; now subst|].
  apply IH. destruct I as [->|I]; auto. rewrite Nat.eqb_refl in E. discriminate E.
Qed.

Lemma in_wanted nB iB i : In i (filter (fun i => existsb (Nat.eqb i) iB) (seq 0 nB)) <-> (i < nB)%nat /\ In i iB.
Proof.
  rewrite filter_In, in_seq, existsb_exists. split.
  - intros [L [x [I E]]]. apply Nat.eqb_eq in E. subst. split; [lia|auto].
  - intros [L I]. split; [lia|]. exists i. split; auto. apply Nat.eqb_refl.
Qed.

Lemma wanted_all nB : filter (fun i => existsb (Nat.eqb i) (seq 0 nB)) (seq 0 nB) = seq 0 nB.
Proof.
  assert (G : forall l m, (forall i, In i l -> In i m) -> filter (fun i => existsb (Nat.eqb i) m) l = l).
  { induction l as [|a l IH]; intros m H; auto. cbn [filter]. replace (existsb (Nat.eqb a) m) with true.
    - f_equal. apply IH. intros i I. apply H. now right.
    - symmetry. apply existsb_exists. exists a. split; [apply H; now left|apply Nat.eqb_refl]. }
  apply G. auto.
Qed.

Lemma plot_some x y cv : plot x y = Some cv -> List.length x = List.length y /\ cv = combine x y.
Proof. unfold plot. destruct (Nat.eqb _ _) eqn:E; [|discriminate]. apply Nat.eqb_eq in E. intros F. injection F as <-. auto. Qed.

(** the curves of a figure *)
Lemma draw_curves nB iB (f : nat -> option (list R * list (list R))) data sw n fig :
  Forall2 (fun i d => f i = Some d) iB data -> draw nB iB data sw n = Some fig ->
  map fst fig = filter (fun i => existsb (Nat.eqb i) iB) (seq 0 nB) /\
  forall i cv, In (i, cv) fig -> (i < nB)%nat /\ In i iB /\ exists x rows y, f i = Some (x, rows) /\ nth_error rows n = Some y /\
    List.length x = List.length y /\ cv = if sw then combine y x else combine x y.
Proof.
  intros F E. unfold draw in E. apply all_some_F2 in E.
  assert (G : Forall2 (fun i (c : nat * curve) => fst c = i /\ exists x rows y, f i = Some (x, rows) /\ nth_error rows n = Some y /\
    List.length x = List.length y /\ snd c = if sw then combine y x else combine x y) (filter (fun i => existsb (Nat.eqb i) iB) (seq 0 nB)) fig).
  { assert (W : forall i, In i (filter (fun i => existsb (Nat.eqb i) iB) (seq 0 nB)) -> In i iB) by (intros i I; apply in_wanted in I; tauto).
    revert W E. generalize (filter (fun i => existsb (Nat.eqb i) iB) (seq 0 nB)). clear -F. intros l W E. induction E as [|i [j cv] l fig H E IH]; constructor.
    - cbn [fst snd]. assert (I : In i iB) by (apply W; now left). pose proof (position_nth iB i I) as P.
      destruct (nth_error data (position iB i)) as [[x rows]|] eqn:D; [|discriminate H].
      pose proof (F2_nth _ _ _ _ _ _ F P D) as Fi.
      destruct (nth_error rows n) as [y|] eqn:Y; [|discriminate H].
      destruct (if sw then plot y x else plot x y) as [p|] eqn:Pl; [|discriminate H]. cbn in H. injection H as <- <-. split; auto.
      exists x, rows, y. repeat split; auto.
      + destruct sw; apply plot_some in Pl; destruct Pl; auto.
      + destruct sw; apply plot_some in Pl; destruct Pl; auto.
    - apply IH. intros k Ik. apply W. now right. }
  split.
  - clear -G. induction G as [|i c l fig [H _] G IH]; cbn; congruence.
  - intros i cv I. destruct (F2_in_r _ _ _ _ G I) as [j [Ij [Ej X]]]. cbn in Ej. subst j. apply in_wanted in Ij. destruct Ij. auto.
Qed.

Lemma draw_none nB iB (f : nat -> option (list R * list (list R))) data sw n i x rows :
  Forall2 (fun i d => f i = Some d) iB data -> (i < nB)%nat -> In i iB -> f i = Some (x, rows) ->
  (forall y, nth_error rows n = Some y -> List.length y <> List.length x) -> draw nB iB data sw n = None.
Proof.
  intros F L I Fi N. destruct (draw nB iB data sw n) as [fig|] eqn:E; auto. exfalso.
  destruct (draw_curves _ _ _ _ _ _ _ F E) as [M C].
  assert (J : In i (map fst fig)) by (rewrite M; apply in_wanted; auto). apply in_map_iff in J. destruct J as [[j cv] [Ej Ij]]. cbn in Ej. subst j.
  destruct (C _ _ Ij) as [_ [_ [x' [rows' [y [Fi' [Y [Ln _]]]]]]]]. rewrite Fi in Fi'. injection Fi' as <- <-. apply (N y Y). auto.
Qed.

(** existence *)
Lemma all_some_ex {A B} (f : A -> option B) l : (forall a, In a l -> exists b, f a = Some b) -> exists r, Net_Model.all_some (map f l) = Some r.
Proof.
  induction l as [|a l IH]; intros H; [now exists []|]. cbn. destruct (H a (or_introl eq_refl)) as [b ->].
  destruct IH as [r ->]; [intros; apply H; now right|]. now exists (b :: r).
Qed.

Lemma F2_data {A B} (f : A -> option B) l r k a : Forall2 (fun a b => f a = Some b) l r -> nth_error l k = Some a -> exists b, nth_error r k = Some b /\ f a = Some b.
Proof. intros F. revert k. induction F; intros [|k] E; cbn in *; try discriminate; [injection E as <-; eauto|eauto]. Qed.

Lemma draw_some nB iB (f : nat -> option (list R * list (list R))) data sw n :
  Forall2 (fun i d => f i = Some d) iB data ->
  (forall i x rows, In i iB -> (i < nB)%nat -> f i = Some (x, rows) -> exists y, nth_error rows n = Some y /\ List.length y = List.length x) ->
  exists fig, draw nB iB data sw n = Some fig.
Proof.
  intros F H. unfold draw. apply all_some_ex. intros i I. apply in_wanted in I. destruct I as [L I].
  destruct (F2_data _ _ _ _ _ F (position_nth iB i I)) as [[x rows] [-> Fi]].
  destruct (H i x rows I L Fi) as [y [-> Ly]]. unfold plot. destruct sw; rewrite Ly, Nat.eqb_refl; cbn; eauto.
Qed.

(** ** Sources of the boreholes *)
Lemma sumn_owned ns F : sumn (list_sum ns) F = sumn (List.length ns) (fun b => sumn (nth b ns O) (fun u => F (first ns b + u)%nat)).
Proof.
  revert F. induction ns as [|n ns IH]; intros F; [reflexivity|]. cbn [list_sum fold_right List.length]. change (fold_right Nat.add 0%nat ns) with (list_sum ns).
  rewrite sumn_split, sumn_S_l, IH. f_equal. apply sumn_ext. intros b _. apply sumn_ext. intros u _. cbn [nth]. f_equal. unfold first. cbn [firstn]. unfold list_sum. cbn [fold_right]. lia.
Qed.

Section Object.
  Variable V : object.
  Local Notation bs := (b_bores V).
  Local Notation ns := (b_n V).
  Local Notation rs := (b_r V).
  Local Notation nB := (List.length bs).
  Hypothesis Sg : segmented bs ns rs.

  Lemma i0_first i : (i < nB)%nat -> i0 V i = first ns i.
  Proof. intros H. unfold i0, i0_segments. now rewrite (nth_map_seq (fun i => list_sum (firstn i ns))). Qed.
  Lemma i1_first i : (i < nB)%nat -> i1 V i = (first ns i + nth i ns O)%nat.
  Proof.
    intros H. unfold i1, i1_segments. rewrite (nth_map_seq (fun i => list_sum (firstn (S i) ns))) by auto.
    change (first ns (S i) = (first ns i + nth i ns O)%nat). apply first_S. destruct Sg as [L _]. lia.
  Qed.

  Lemma own_seq i : (i < nB)%nat -> own V i = seq (first ns i) (nth i ns O).
  Proof. intros H. unfold own. rewrite i1_first, i0_first by auto. f_equal. lia. Qed.

  Lemma average_sum i q : (i < nB)%nat ->
    Rsum (map (fun k => q k * nth (k - i0 V i) (nth i rs []) 0) (seq (i0 V i) (i1 V i - i0 V i)))
    = sumn (nth i ns O) (fun u => q (first ns i + u)%nat * nth u (nth i rs []) 0).
  Proof.
    intros H. fold (own V i). rewrite own_seq, i0_first by auto. rewrite Rsum_sumn, map_length, seq_length. apply sumn_ext. intros u Hu.
    rewrite (nth_map _ _ _ O) by (rewrite seq_length; auto). rewrite seq_nth by auto. do 2 f_equal. lia.
  Qed.

  Lemma average_nth i rows p : (i < nB)%nat -> (p < List.length rows)%nat ->
    nth p (average V i rows) 0 = sumn (nth i ns O) (fun u => nth p rows zero_vec (first ns i + u)%nat * nth u (nth i rs []) 0).
  Proof. intros H Hp. unfold average. rewrite (nth_map _ _ _ zero_vec) by auto. now apply average_sum. Qed.

  Lemma average_length i rows : List.length (average V i rows) = List.length rows.
  Proof. unfold average. apply map_length. Qed.

  (** the mean over the boreholes of the mean over their segments *)
  Lemma weighted_sum (w H q : nat -> R) : (forall i u, (i < nB)%nat -> (u < nth i ns O)%nat -> H (first ns i + u)%nat = w i * nth u (nth i rs []) 0) ->
    sumn nB (fun i => w i * sumn (nth i ns O) (fun u => q (first ns i + u)%nat * nth u (nth i rs []) 0)) = sumn (list_sum ns) (fun k => H k * q k).
  Proof.
    intros E. destruct Sg as [L _]. rewrite sumn_owned, L. apply sumn_ext. intros i Hi. rewrite <- sumn_scal. apply sumn_ext. intros u Hu. rewrite E by auto. ring.
  Qed.

  Lemma weight_total (w H : nat -> R) : good_ratios rs -> (forall i u, (i < nB)%nat -> (u < nth i ns O)%nat -> H (first ns i + u)%nat = w i * nth u (nth i rs []) 0) ->
    sumn (list_sum ns) H = sumn nB w.
  Proof.
    intros Gr E. rewrite <- (sumn_ext (list_sum ns) (fun k => H k * 1) H) by (intros; ring). rewrite <- (weighted_sum w H (fun _ => 1) E). apply sumn_ext. intros i Hi.
    destruct Sg as [L [L' Lr]]. destruct (Gr (nth i rs [])) as [S1 _]; [apply nth_In; lia|].
    rewrite (sumn_ext _ _ (fun u => nth u (nth i rs []) 0)) by (intros; ring). rewrite <- (Lr i Hi), <- Rsum_sumn, S1. ring.
  Qed.

  Lemma log_length cbs : List.length (log_times V cbs) = List.length (b_time V).
  Proof. unfold log_times. apply map_length. Qed.

  Lemma time_figure_curves data iB n fig : time_figure V data iB n = Some fig ->
    map fst fig = filter (fun i => existsb (Nat.eqb i) (requested V iB)) (seq 0 nB) /\
    forall i cv, In (i, cv) fig -> (i < nB)%nat /\ exists rows y, data i = Some rows /\ nth_error rows n = Some y /\
      List.length y = List.length (b_time V) /\ cv = combine (log_times V bs) y.
  Proof.
    unfold time_figure. destruct (Net_Model.all_some (map data (requested V iB))) as [d|] eqn:D; [|discriminate]. intros E. apply all_some_F2 in D.
    assert (F : Forall2 (fun i x => option_map (fun rows => (log_times V bs, rows)) (data i) = Some x) (requested V iB) (map (fun rows => (log_times V bs, rows)) d)).
    { clear -D. induction D as [|i r l d H D IH]; cbn; constructor; auto. now rewrite H. }
    destruct (draw_curves _ _ _ _ _ _ _ F E) as [M C]. split; auto. intros i cv I. destruct (C i cv I) as [L [_ [x [rows [y [Fi [Y [Ln Cv]]]]]]]]. split; auto.
    destruct (data i) as [rows'|]; [|discriminate Fi]. cbn in Fi. injection Fi as <- <-. exists rows', y. repeat split; auto. rewrite <- Ln. apply log_length.
  Qed.

  Lemma depth_figure_curves data iB n fig : depth_figure V data iB n = Some fig ->
    map fst fig = filter (fun i => existsb (Nat.eqb i) (requested V iB)) (seq 0 nB) /\
    forall i cv, In (i, cv) fig -> (i < nB)%nat /\ exists x rows y, data i = Some (x, rows) /\ nth_error rows n = Some y /\
      List.length x = List.length y /\ cv = combine y x.
  Proof.
    unfold depth_figure. destruct (Net_Model.all_some (map data (requested V iB))) as [d|] eqn:D; [|discriminate]. intros E. apply all_some_F2 in D.
    destruct (draw_curves _ _ _ _ _ _ _ D E) as [M C]. split; auto. intros i cv I. destruct (C i cv I) as [L [_ X]]. auto.
  Qed.

  Lemma height_combine x y p : List.length x = List.length y -> (p < List.length y)%nat -> height (combine x y) p = nth p y 0.
  Proof. intros L H. unfold height. rewrite combine_nth by auto. reflexivity. Qed.
  Lemma abscissa_combine x y p : List.length x = List.length y -> abscissa (combine x y) p = nth p x 0.
  Proof. intros L. unfold abscissa. rewrite combine_nth by auto. reflexivity. Qed.

  (** sum over the curves of a figure of all boreholes *)
  Lemma figure_sum (fig : figure) (w v : nat -> R) p : map fst fig = seq 0 nB -> (forall i cv, In (i, cv) fig -> height cv p = v i) ->
    Rsum (map (fun f => w (fst f) * height (snd f) p) fig) = sumn nB (fun i => w i * v i).
  Proof.
    intros M H. rewrite <- Rsum_map_seq, <- M, map_map. f_equal. apply map_ext_in. intros [i cv] I. cbn. now rewrite (H i cv I).
  Qed.
End Object.
