(** Specification of the figures of a g-function object: C114 - C120. *)
From Coq Require Import String.
From Verif Require Import Base LinAlg FLS_Model.
From Verif Require Import Bore_Model Net_Model Net_Spec Solve_Model Detailed_Model Detailed_Spec Sim_Model Eq_Model GFun_Model GFun_Spec Prof_Model.

(** The value of a curve at the p-th of its points. *)
Definition height (cv : curve) (p : nat) : R := snd (nth p cv (0, 0)).
Definition abscissa (cv : curve) (p : nat) : R := fst (nth p cv (0, 0)).

(** A solver that works with the boreholes of the field, each for itself. *)
Definition each_borehole (c : call) : Prop := c_method c = "detailed"%string \/ c_method c = "similarities"%string.

(** The number of times of an object. *)
Definition has_times (c : call) (t : list R) : Prop := times (c_time c) = Some t.

(** Mean over the field of the curves of all its boreholes: their weights are the lengths. *)
Definition field_average (bs : list bore) (fig : figure) (p : nat) : R :=
  Rsum (map (fun f => bH (nth (fst f) bs no_bore) * height (snd f) p) fig) / Rsum (map bH bs).

(** The same for groups of boreholes. *)
Definition group_length (e : ebore) : R := eH e * INR (List.length (ex e)).
Definition group_average (E : list ebore) (fig : figure) (p : nat) : R :=
  Rsum (map (fun f => group_length (nth (fst f) E (EBore 0 0 0 [] [] 0 [])) * height (snd f) p) fig) / Rsum (map group_length E).

(** The points of a profile of a borehole of [n] segments with ratios [r]: their mean,
    and the two points of a single segment. *)
Definition profile_mean (r : list R) (pr : curve) : R := sumn (List.length r) (fun u => nth u r 0 * abscissa pr u).

(** t lies in the p-th interval of the times, at the fraction x of it. *)
Definition within_step (time : list R) (p : nat) (x t : R) : Prop :=
  (S p < List.length time)%nat /\ nth p time 0 < nth (S p) time 0 /\ 0 <= x <= 1 /\ t = nth p time 0 + x * (nth (S p) time 0 - nth p time 0).

Definition strictly (time : list R) : Prop := forall p, (S p < List.length time)%nat -> nth p time 0 < nth (S p) time 0.

(** Depth below the ground surface of the point of a borehole at the distance z from its
    head, along its axis. *)
Definition true_depth (b : bore) (z : R) : R := bD b + z * cos (btilt b).

(** Objects for which the attributes of the figures have the expected dimensions: a list of
    boreholes without flows, or a network with a mixed inlet temperature. *)
Definition plain (c : call) : Prop := (exists bs, c_source c = Field bs) /\ c_mb c = VNone /\ c_mn c = VNone.
Definition fluid (c : call) : Prop := (exists w, c_source c = Piped w) /\ (c_bc c = None \/ c_bc c = Some "MIFT"%string).

(** The flows of a result. *)
Definition flow_index (g : gresult) (n : nat) : Prop := match g with G1 _ => n = O | G3 k _ => (n < k)%nat end.

(** The boundary condition of an object. *)
Definition boundary (c : call) : string :=
  match c_bc c with Some b => b | None => match c_source c with Field _ => "UBWT"%string | Piped _ => "MIFT"%string end end.

(** Segments and ratios that fit the boreholes, which have a length. *)
Definition sound (c : call) : Prop :=
  segmented (boreholes_of c) (segments_of c) (ratios_of c) /\ good_ratios (ratios_of c) /\ Rsum (map bH (boreholes_of c)) <> 0.

(** A solver that works with the groups (a network with other flows or pipes is passed on to
    the similarities solver). *)
Definition grouped (link : list R -> tree) (c : call) (E : list ebore) : Prop :=
  (exists q s, construct c = Some (q, s) /\ q_method q = "equivalent"%string) /\
  equivalent_boreholes link (o_k (c_options c)) (o_tol (c_options c)) (boreholes_of c) = Some E.

(** [pr] is the profile of a borehole [b] of ratios [r] whose mean value is [v]: the two ends
    of a single segment, or the middles of the segments. *)
Definition shows (b : bore) (r : list R) (pr : curve) (v : R) : Prop :=
  (List.length r = 1%nat -> pr = [(v, bD b); (v, bD b + bH b)]) /\
  ((1 < List.length r)%nat -> List.length pr = List.length r /\ profile_mean r pr = v /\
    forall u, (u < List.length r)%nat -> snd (nth u pr (0, 0)) = bD b + bH b * (sumn u (fun k => nth k r 0) + nth u r 0 / 2)).

(** The value of a curve at the fraction x of the p-th interval. *)
Definition between (cv : curve) (p : nat) (x : R) : R := (1 - x) * height cv p + x * height cv (S p).

(** The logarithms of the times over the characteristic time of a field, which is that of the
    mean length H: H^2 / (9 alpha). *)
Definition axis (lengths : list R) (alpha : R) (time : list R) : list R :=
  map (fun t => ln (t * (9 * alpha) / (Rsum lengths / INR (List.length lengths)) ^ 2)) time.

(** The points of a profile lie at the depths of the points of the borehole. *)
Definition at_depths (b : bore) (r : list R) (pr : curve) : Prop :=
  map snd pr = if Nat.eqb (List.length r) 1 then [true_depth b 0; true_depth b (bH b)]
               else map (fun u => true_depth b (bH b * (sumn u (fun k => nth k r 0) + nth u r 0 / 2))) (seq 0 (List.length r)).
