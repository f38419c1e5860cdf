(** C143-C147 and C157: the powdered-carbon web application. *)
From Coq Require Import Reals List Arith Bool String Lra Lia ZArith.
From Verif Require Import Lib_Py Lib_Sum M_GacFun M_GacShiny M_RIexApp S_RIexApp M_RGacApp S_RGacApp P_RGacApp M_Pac Props_Pac M_RPacApp.
Import ListNotations.
Open Scope R_scope.
Open Scope string_scope.
Local Notation length := List.length.

(** * C143: results are shown in the units chosen: [c] mg/L, [t] minutes *)
Inductive minutes : string -> R -> Prop := u_Minutes : minutes "Minutes" 1 | u_PHours : minutes "Hours" 60.
Theorem C143_units u m c v k t : mass_unit u m -> minutes v k -> p_plot_conc u (1000 * c) = Ok (c / m) /\ p_plot_time v t = Ok (t / k).
Proof.
  intros M K. unfold p_plot_conc, p_plot_time, factor_of. split.
  - destruct M; cbn; f_equal; unfold dec; field.
  - destruct K; cbn; f_equal; field.
Qed.
Example C143_met : mass_unit "ng/L" (1 / 1000000) /\ minutes "Hours" 60. Proof. split; constructor. Qed.

(** * C144: C/C0 is the concentration over the C0 of its compound *)
(** The C0 of a compound in ug/L. *)
Definition c0_of (s : csheet) (n : string) (c : R) : Prop := exists x u m, In (n, x, u) s /\ mass_unit u m /\ c = x * (1000 * m).
Lemma convert_entry_ok s k n x u m : nth_error s k = Some (n, x, u) -> mass_unit u m -> convert_entry s k = Some (x * (1000 * m)).
Proof. intros E M. unfold convert_entry. rewrite E. destruct M; cbn; f_equal; unfold dec; field. Qed.
Lemma recycled_two d1 d2 l : forall f g : nat -> R,
  recycled [d1; d2] [] (flat_map (fun k => [f k; g k]) l) = flat_map (fun k => [over (f k) d1; over (g k) d2]) l.
Proof. intros f g. induction l as [|k l IH]; [reflexivity|]. cbn [flat_map app recycled]. rewrite IH. reflexivity. Qed.
Lemma combine_pairs {A B C} (f : A -> B) (g : A -> C) (f' : A -> B) (g' : A -> C) l :
  combine (flat_map (fun k => [f k; f' k]) l) (flat_map (fun k => [g k; g' k]) l) = flat_map (fun k => [(f k, g k); (f' k, g' k)]) l.
Proof. induction l as [|k l IH]; [reflexivity|]. cbn [flat_map app combine]. rewrite IH. reflexivity. Qed.
Lemma map_pairs {A B C} (h : B -> C) (f g : A -> B) l : map h (flat_map (fun k => [f k; g k]) l) = flat_map (fun k => [h (f k); h (g k)]) l.
Proof. induction l as [|k l IH]; [reflexivity|]. cbn [flat_map app map]. rewrite IH. reflexivity. Qed.

Theorem C144_two_compounds_partial a b xa xb ua ub ma mb t cola colb w n z :
  let s := [(a, xa, ua); (b, xb, ub)] in t_cols t = [(a, cola); (b, colb)] -> table_ok (wide t) -> mass_unit ua ma -> mass_unit ub mb ->
  In (w, n, z) (pac_cc0 s t) <-> exists v c, says (wide t) w n v /\ c0_of s n c /\ z = Some (v / c).
Proof.
  cbn zeta. intros ET TO MA MB. destruct TO as (ND & HF). unfold wide in *. cbn [f_time f_cols] in *. rewrite ET in ND, HF.
  assert (NE : a <> b). { cbn in ND. inversion ND as [|p q N1 N2]. subst. intros ->. apply N1. left. reflexivity. }
  inversion HF as [|p q LA HF2]; subst. inversion HF2 as [|p q LB _]; subst. cbn [snd] in LA, LB.
  set (s := [(a, xa, ua); (b, xb, ub)]). unfold pac_cc0, wide, by_row. cbn [f_time f_cols]. rewrite !ET. cbn [map fst snd].
  assert (E0 : convert_array s = [Some (xa * (1000 * ma)); Some (xb * (1000 * mb))]).
  { unfold convert_array. cbn [seq map Nat.sub]. rewrite (convert_entry_ok s 0 a xa ua ma eq_refl MA), (convert_entry_ok s 1 b xb ub mb eq_refl MB). reflexivity. }
  rewrite E0. set (ks := seq 0 (length (t_min t))).
  set (T := fun k : nat => nth k (t_min t) 0).
  change (fun k => [(nth k (t_min t) 0, a, nth k cola 0); (nth k (t_min t) 0, b, nth k colb 0)]) with (fun k => [(T k, a, nth k cola 0); (T k, b, nth k colb 0)]).
  rewrite !(map_pairs _ (fun k => (T k, a, nth k cola 0)) (fun k => (T k, b, nth k colb 0))). cbn [fst snd]. rewrite recycled_two.
  rewrite (combine_pairs (fun k => (T k, a)) (fun k => over (nth k cola 0) (Some (xa * (1000 * ma)))) (fun k => (T k, b)) (fun k => over (nth k colb 0) (Some (xb * (1000 * mb))))).
  rewrite in_flat_map. unfold says. cbn [f_time f_cols].
  assert (CA : forall c, c0_of s a c <-> c = xa * (1000 * ma)).
  { intros c. unfold c0_of, s. split; [intros (x & u & m & [E|[E|[]]] & M & ->); [|exfalso; apply NE; congruence]|intros ->; exists xa, ua, ma; split; [left; reflexivity|split; [exact MA|reflexivity]]].
    assert (x = xa) by congruence. assert (u = ua) by congruence. subst. rewrite (mass_fun _ _ _ M MA). reflexivity. }
  assert (CB : forall c, c0_of s b c <-> c = xb * (1000 * mb)).
  { intros c. unfold c0_of, s. split; [intros (x & u & m & [E|[E|[]]] & M & ->); [exfalso; apply NE; congruence|]|intros ->; exists xb, ub, mb; split; [right; left; reflexivity|split; [exact MB|reflexivity]]].
    assert (x = xb) by congruence. assert (u = ub) by congruence. subst. rewrite (mass_fun _ _ _ M MB). reflexivity. }
  split.
  - intros (k & I & J). apply in_seq in I. destruct J as [J|[J|[]]].
    + assert (E1 : T k = w) by congruence. assert (E2 : a = n) by congruence. assert (E3 : over (nth k cola 0) (Some (xa * (1000 * ma))) = z) by congruence. subst n z.
      exists (nth k cola 0), (xa * (1000 * ma)). split; [|split; [apply CA; reflexivity|reflexivity]]. exists cola, k. split; [left; reflexivity|].
      split; [rewrite <- E1; unfold T; apply nth_error_nth'; lia|apply nth_error_nth'; lia].
    + assert (E1 : T k = w) by congruence. assert (E2 : b = n) by congruence. assert (E3 : over (nth k colb 0) (Some (xb * (1000 * mb))) = z) by congruence. subst n z.
      exists (nth k colb 0), (xb * (1000 * mb)). split; [|split; [apply CB; reflexivity|reflexivity]]. exists colb, k. split; [right; left; reflexivity|].
      split; [rewrite <- E1; unfold T; apply nth_error_nth'; lia|apply nth_error_nth'; lia].
  - intros (v & c & (col & k & I & A & B) & C & ->). exists k. assert (Hk : (k < length (t_min t))%nat) by (apply nth_error_Some; congruence).
    split; [apply in_seq; lia|]. apply (nth_nth_error _ _ 0) in A, B. fold (T k) in A. destruct I as [I|[I|[]]].
    + assert (a = n) by congruence. assert (cola = col) by congruence. subst. apply CA in C. subst c. left. reflexivity.
    + assert (b = n) by congruence. assert (colb = col) by congruence. subst. apply CB in C. subst c. right. left. reflexivity.
Qed.
(** One compound: every second value is missing. *)
Theorem C144_one_refuted a x u m s t p q : mass_unit u m ->
  pac_cc0 [(a, x, u)] {| t_min := [s; t]; t_cols := [(a, [p; q])] |} = [((s, a), Some (p / (x * (1000 * m)))); ((t, a), None)].
Proof.
  intros M. unfold pac_cc0, convert_array. cbn [seq map Nat.sub]. rewrite (convert_entry_ok [(a, x, u)] 0 a x u m eq_refl M). reflexivity.
Qed.
(** Three: the third is divided by the first compound's C0, and from then on nothing fits. *)
Theorem C144_three_refuted a b c xa xb xc ua ub uc ma mb t p q r : mass_unit ua ma -> mass_unit ub mb ->
  pac_cc0 [(a, xa, ua); (b, xb, ub); (c, xc, uc)] {| t_min := [t]; t_cols := [(a, [p]); (b, [q]); (c, [r])] |} =
  [((t, a), Some (p / (xa * (1000 * ma)))); ((t, b), Some (q / (xb * (1000 * mb)))); ((t, c), Some (r / (xa * (1000 * ma))))].
Proof.
  intros MA MB. unfold pac_cc0, convert_array. cbn [seq map Nat.sub]. set (s := [(a, xa, ua); (b, xb, ub); (c, xc, uc)]). rewrite (convert_entry_ok s 0 a xa ua ma eq_refl MA), (convert_entry_ok s 1 b xb ub mb eq_refl MB). reflexivity.
Qed.
Example C144_met : let t := {| t_min := [0; 1]; t_cols := [("PFOA", [50; 20]); ("PFOS", [30; 10])] |} in
  table_ok (wide t) /\ In (1, "PFOS", Some (10 / (30 * (1000 * (1 / 1000))))) (pac_cc0 [("PFOA", 50, "ug"); ("PFOS", 30, "ug")] t).
Proof.
  cbn zeta. assert (TO : table_ok (wide {| t_min := [0; 1]; t_cols := [("PFOA", [50; 20]); ("PFOS", [30; 10])] |})) by (split; [repeat constructor; cbn; intuition discriminate|repeat constructor]).
  split; [exact TO|]. apply (C144_two_compounds_partial "PFOA" "PFOS" 50 30 "ug" "ug" _ _ {| t_min := [0; 1]; t_cols := [("PFOA", [50; 20]); ("PFOS", [30; 10])] |} [50; 20] [30; 10] 1 "PFOS" _ eq_refl TO u_ug u_ug).
  exists 10, (30 * (1000 * (1 / 1000))). split; [exists [30; 10], 1%nat; split; [right; left; reflexivity|split; reflexivity]|]. split; [|reflexivity].
  exists 30, "ug", (1 / 1000). split; [right; left; reflexivity|]. split; [constructor|reflexivity].
Qed.

Lemma int_part x z : IZR z <= x < IZR z + 1 -> Int_part x = z.
Proof.
  intros (A & B). unfold Int_part. assert (E : (z + 1)%Z = up x) by (apply tech_up; rewrite plus_IZR; lra). lia.
Qed.
(** * C145: the doses of the study *)
Lemma each_dose_doses f solve doses : forall o, map fst (snd (each_dose f solve o doses)) = doses.
Proof. induction doses as [|d doses IH]; intros o; [reflexivity|]. cbn [each_dose snd map fst]. rewrite IH. reflexivity. Qed.
Lemma r_seq_even lo hi n : lo < hi -> (2 <= n)%nat -> r_seq lo hi ((hi - lo) / (INR n - 1)) = map (fun k => lo + INR k * ((hi - lo) / (INR n - 1))) (seq 0 n).
Proof.
  intros L N. assert (N1 : 1 <= INR n - 1) by (apply le_INR in N; cbn in N; lra). unfold r_seq. rewrite reqb_neq by lra.
  assert (E : (hi - lo) / ((hi - lo) / (INR n - 1)) = INR (n - 1)). { rewrite minus_INR by lia. cbn [INR]. field. split; lra. }
  rewrite E. assert (EZ : Int_part (INR (n - 1) + dec 1 10) = Z.of_nat (n - 1)).
  { apply int_part. rewrite <- INR_IZR_INZ. unfold dec. lra. }
  rewrite EZ, Nat2Z.id. replace (S (n - 1)) with n by lia. apply map_ext_in. intros k I. apply in_seq in I. apply Rmin_left.
  assert (K : INR k <= INR n - 1). { replace (INR n - 1) with (INR (n - 1)) by (rewrite minus_INR by lia; reflexivity). apply le_INR. lia. }
  assert (P : 0 < (hi - lo) / (INR n - 1)) by (apply Rdiv_lt_0_compat; lra).
  assert (Q : INR k * ((hi - lo) / (INR n - 1)) <= (INR n - 1) * ((hi - lo) / (INR n - 1))) by (apply Rmult_le_compat_r; lra).
  replace ((INR n - 1) * ((hi - lo) / (INR n - 1))) with (hi - lo) in Q by (field; lra). lra.
Qed.
(** Concentrations are given at [n] evenly spaced doses, both ends included. *)
Theorem C145_doses_partial f solve o lo hi n : lo < hi -> (2 <= n)%nat ->
  length (by_dose f solve o lo hi n) = n /\
  forall k, (k < n)%nat -> exists r, nth_error (by_dose f solve o lo hi n) k = Some (lo + (hi - lo) * (INR k / INR (n - 1)), r).
Proof.
  intros L N. assert (N1 : 1 <= INR n - 1) by (apply le_INR in N; cbn in N; lra).
  assert (E : map fst (by_dose f solve o lo hi n) = map (fun k => lo + INR k * ((hi - lo) / (INR n - 1))) (seq 0 n)).
  { unfold by_dose, run_multi_doseR, run_multi_dosage, analyze. cbn [snd fst]. rewrite map_map. cbn [fst]. rewrite each_dose_doses. apply r_seq_even; assumption. }
  split; [rewrite <- (map_length fst), E, map_length, seq_length; reflexivity|]. intros k Hk.
  assert (G : nth_error (map fst (by_dose f solve o lo hi n)) k = Some (lo + INR k * ((hi - lo) / (INR n - 1)))).
  { rewrite E, nth_error_map. rewrite (nth_error_nth' _ 0%nat) by (rewrite seq_length; exact Hk). rewrite seq_nth by exact Hk. reflexivity. }
  rewrite nth_error_map in G. destruct (nth_error (by_dose f solve o lo hi n) k) as [[d r]|]; [|discriminate G]. cbn in G. exists r. f_equal. f_equal.
  assert (G2 : d = lo + INR k * ((hi - lo) / (INR n - 1))) by congruence. rewrite G2, minus_INR by lia. cbn [INR]. field. lra.
Qed.
(** Waiting times are given at 5, 25, ... 145 mg/L, whatever is chosen. *)
Lemma each_trial_doses f solve target doses : forall o, map fst (snd (each_trial f solve target o doses)) = doses.
Proof. induction doses as [|d doses IH]; intros o; [reflexivity|]. cbn [each_trial snd map fst]. rewrite IH. reflexivity. Qed.
Theorem C145_target_doses_refuted f solve o lo hi n target tu cu r : for_target f solve o lo hi n target tu cu = Ok r ->
  map fst r = [5; 25; 45; 65; 85; 105; 125; 145].
Proof.
  unfold for_target, R_HRT_calculator. intros H. destruct (unit_factor tu) as [k|]; [|discriminate H].
  assert (D : default_doses = [5; 25; 45; 65; 85; 105; 125; 145]) by (unfold default_doses; cbn [seq map]; repeat (apply f_equal2; [simpl; lra|]); reflexivity).
  destruct (String.eqb (lower cu) "same").
  - cbn [snd] in H. match type of H with Ok ?x = _ => assert (E : x = r) by congruence end. rewrite <- E, each_trial_doses. exact D.
  - destruct (lookup (lower cu) conc_convert); [|discriminate H]. cbn [snd] in H. match type of H with Ok ?x = _ => assert (E : x = r) by congruence end. rewrite <- E, each_trial_doses. exact D.
Qed.
Example C145_met : 5 < 150 /\ (2 <= 5)%nat /\ chosen_doses 5 150 5 = map (fun k => 5 + INR k * ((150 - 5) / (INR 5 - 1))) (seq 0 5).
Proof. split; [lra|]. split; [lia|]. apply r_seq_even; [lra|lia]. Qed.

(** * C146: waiting times are those of the water in the sheet *)
Lemma update_same f o o' : p_dosage o = p_dosage o' -> p_duration o = p_duration o' -> p_conv o = p_conv o' -> compounds_of o = compounds_of o' -> update_values f o = update_values f o'.
Proof.
  intros E1 E2 E3 E4. unfold update_values. rewrite E1, E2, E3. f_equal. unfold compounds_of in E4. revert E4. generalize (p_conv o'). generalize (p_table o), (p_table o').
  intros l. induction l as [|[n [c d]] l IH]; intros [|[n' [c' d']] l'] ks E4; try discriminate E4; [reflexivity|]. cbn [map fst snd] in E4.
  assert (n = n') by congruence. assert (c = c') by congruence. assert (E : map (fun x => (fst x, fst (snd x))) l = map (fun x : string * (comp * derived) => (fst x, fst (snd x))) l') by congruence.
  subst. destruct ks as [|k ks]; [reflexivity|]. cbn [combine map]. f_equal. apply IH, E.
Qed.
Lemma each_trial_map f solve target doses : forall o, length (p_conv o) = length (p_table o) ->
  snd (each_trial f solve target o doses) = map (fun d => let o1 := update_values f (set_dosage o d) in (d, hrts_of target (p_conv o) (run f solve o1))) doses.
Proof.
  induction doses as [|d doses IH]; intros o L; [reflexivity|]. cbn [each_trial snd map]. f_equal.
  rewrite IH by (rewrite (proj2 (update_compounds f (set_dosage o d) L)); exact L). apply map_ext_in. intros d' _. cbn zeta. f_equal.
  rewrite (update_twice f o d d' L). reflexivity.
Qed.
Lemma set_units_compounds u t : map (fun x => (fst x, fst (snd x))) (set_units u t) =
  map (fun x => let c := snd x in (fst x, {| K := K c; xn := xn c; kf := kf c; Dp := Dp c; Ds := Ds c; C0 := C0 c; C0_units := u |})) (map (fun x => (fst x, fst (snd x))) t).
Proof. unfold set_units. rewrite !map_map. apply map_ext. intros [n [c d]]. reflexivity. Qed.
(** A sheet all of whose units are the unit chosen: the waiting time at each dose is read from the
    run of the object's own water, in its own units. *)
Theorem C146_same_unit_partial f solve o target tu k doses cu m : String.eqb (lower cu) "same" = false -> unit_factor tu = Ok k ->
  lookup (lower cu) conc_convert = Some m -> p_conv o = map (fun _ => m) (p_table o) ->
  snd (R_HRT_calculator f solve o target tu doses cu) =
  Ok (map (fun d => (d, hrts_of (target * k) (p_conv o) (run f solve (update_values f (set_dosage (set_duration o (3000 * 60)) d))))) doses).
Proof.
  intros S U L C. unfold R_HRT_calculator. rewrite U, S, L. cbn [snd]. f_equal.
  rewrite each_trial_map by (unfold set_table, set_conv, set_units; cbn [p_conv p_table]; rewrite !map_length; reflexivity).
  apply map_ext_in. intros d _. cbn zeta. f_equal. cbn [set_table set_conv p_conv]. rewrite <- C. f_equal.
  (* the runs do not read the names of the units *)
  unfold run. cbn [update_values set_dosage set_duration set_table set_conv p_eps p_dosage p_duration p_table p_conv].
  assert (E1 : forall ks, map (fun nx : string * (comp * derived) => eqn_of f (eps_of f d) (fst (snd nx)))
     (map (fun x => let '(n, (c, _), cv) := x in (n, (c, derive f (eps_of f d) cv c))) (combine (set_units (lower cu) (p_table o)) ks)) =
     map (fun nx : string * (comp * derived) => eqn_of f (eps_of f d) (fst (snd nx)))
     (map (fun x => let '(n, (c, _), cv) := x in (n, (c, derive f (eps_of f d) cv c))) (combine (p_table o) ks))).
  { clear. induction (p_table o) as [|[n [c dd]] l IH]; intros [|k ks]; try reflexivity. cbn. f_equal. apply IH. }
  rewrite E1. f_equal.
  assert (E2 : length (map (fun x : string * (comp * derived) * R => let '(n, (c, _), cv) := x in (n, (c, derive f (eps_of f d) cv c))) (combine (set_units (lower cu) (p_table o)) (p_conv o))) =
    length (map (fun x : string * (comp * derived) * R => let '(n, (c, _), cv) := x in (n, (c, derive f (eps_of f d) cv c))) (combine (p_table o) (p_conv o)))).
  { rewrite !map_length, !combine_length. unfold set_units. rewrite map_length. reflexivity. }
  rewrite E2. generalize (length (map (fun x : string * (comp * derived) * R => let '(n, (c, _), cv) := x in (n, (c, derive f (eps_of f d) cv c))) (combine (p_table o) (p_conv o)))). intros len.
  match goal with |- map (fun inx => (_, map (fun s => _) ?sol)) _ = _ => generalize sol end. intros sol. clear.
  generalize (seq 0 len). generalize (p_conv o). induction (p_table o) as [|[n [c dd]] l IH]; intros ks js; [reflexivity|].
  destruct ks as [|k ks]; [reflexivity|]. destruct js as [|j js]; [reflexivity|]. cbn. f_equal. apply IH.
Qed.
(** Otherwise the units of the sheet are ignored: two waters given by the same numbers in different
    units get the same waiting times. *)
Definition relabelled (l l' : list (string * comp)) : Prop :=
  Forall2 (fun p q => fst p = fst q /\ K (snd p) = K (snd q) /\ xn (snd p) = xn (snd q) /\ kf (snd p) = kf (snd q) /\ Dp (snd p) = Dp (snd q) /\ Ds (snd p) = Ds (snd q) /\ C0 (snd p) = C0 (snd q)) l l'.
Theorem C146_units_refuted f solve o o' target tu doses cu : String.eqb (lower cu) "same" = false ->
  relabelled (compounds_of o) (compounds_of o') ->
  snd (R_HRT_calculator f solve o target tu doses cu) = snd (R_HRT_calculator f solve o' target tu doses cu).
Proof.
  intros S E. unfold R_HRT_calculator. destruct (unit_factor tu) as [k|]; [|reflexivity]. rewrite S. destruct (lookup (lower cu) conc_convert) as [m|]; [|reflexivity]. cbn [snd]. f_equal.
  assert (LT : length (p_table o) = length (p_table o')).
  { assert (Q : length (compounds_of o) = length (compounds_of o')) by (clear - E; induction E as [|p q l l' _ _ IH]; [reflexivity|cbn; rewrite IH; reflexivity]). unfold compounds_of in Q. rewrite !map_length in Q. exact Q. }
  assert (EM : map (fun _ => m) (p_table o) = map (fun _ => m) (p_table o')).
  { revert LT. generalize (p_table o'). induction (p_table o) as [|x l IH]; intros [|y l'] LT; try discriminate LT; [reflexivity|]. cbn. f_equal. apply IH. cbn in LT. congruence. }
  rewrite !each_trial_map by (unfold set_table, set_conv, set_units; cbn [p_conv p_table]; rewrite !map_length; reflexivity).
  apply map_ext_in. intros d _. cbn zeta. f_equal. cbn [set_table set_conv p_conv]. rewrite EM. f_equal. apply f_equal. apply update_same; [reflexivity|reflexivity|reflexivity|].
  unfold compounds_of. cbn [set_dosage set_table p_table]. rewrite !set_units_compounds. fold (compounds_of o). fold (compounds_of o').
  induction E as [|[n c] [n' c'] l l' (A1 & A2 & A3 & A4 & A5 & A6 & A7) _ IH]; [reflexivity|]. cbn [fst snd] in *. cbn [map fst snd]. rewrite A1, A2, A3, A4, A5, A6, A7, IH. reflexivity.
Qed.
Definition one_compound (u : string) : list (string * comp) := [("PFOA", {| K := 100; xn := dec 45 2; kf := dec 1 3; Dp := dec 1 6; Ds := dec 1 10; C0 := 50; C0_units := u |})].
Example C146_met : exists f o o', create f 15 3600 (one_compound "ng") = Ok o /\ create f 15 3600 (one_compound "mg") = Ok o' /\ relabelled (compounds_of o) (compounds_of o') /\ p_conv o <> p_conv o' /\
  String.eqb (lower "ng") "same" = false /\ p_conv o = map (fun _ => dec 1 3) (p_table o).
Proof.
  exists {| f_density := dec 8 1; f_porosity := dec 6 1; f_radius := dec 1 3; f_dw := 1; f_hrt := 3600 |}. do 2 eexists. split; [reflexivity|]. split; [reflexivity|].
  split; [repeat constructor|]. split; [|split; reflexivity]. cbn. intros E. match type of E with [?x] = [?y] => assert (Q : x = y) by congruence end. unfold dec in Q. lra.
Qed.

(** * C147: what a workbook puts on the page, and what a saved workbook holds *)
Lemma magnitude_ok x e : powerRZ 10 e <= x < powerRZ 10 (e + 1) -> magnitude x = e.
Proof.
  intros (H1 & H2). unfold magnitude. symmetry. assert (P10 : 0 < ln 10) by (rewrite <- ln_1; apply ln_increasing; lra).
  assert (LP : forall z, ln (powerRZ 10 z) = IZR z * ln 10) by (intros z; rewrite powerRZ_Rpower by lra; unfold Rpower; apply ln_exp).
  assert (P1 : 0 < powerRZ 10 e) by (apply powerRZ_lt; lra).
  assert (A : IZR e * ln 10 <= ln x). { rewrite <- LP. destruct H1 as [H1|<-]; [left; apply ln_increasing; assumption|right; reflexivity]. }
  assert (B : ln x < IZR (e + 1) * ln 10). { rewrite <- LP. apply ln_increasing; lra. }
  rewrite plus_IZR in B. symmetry. apply int_part. split.
  - apply (Rmult_le_reg_r (ln 10)); [exact P10|]. unfold Rdiv. rewrite Rmult_assoc, Rinv_l, Rmult_1_r by lra. exact A.
  - apply (Rmult_lt_reg_r (ln 10)); [exact P10|]. unfold Rdiv. rewrite Rmult_assoc, Rinv_l, Rmult_1_r by lra. exact B.
Qed.
(** [x] has at most four significant digits, or is a whole number with more *)
Definition short (x : R) : Prop := exists e k, powerRZ 10 e <= x < powerRZ 10 (e + 1) /\ x = IZR k * powerRZ 10 (Z.min 0 (e - 3)).
Lemma format4_short x : short x -> format4 x = x.
Proof.
  intros (e & k & H & E). unfold format4. rewrite (magnitude_ok x e H). cbn zeta. set (q := powerRZ 10 (Z.min 0 (e - 3))) in *.
  assert (Q : 0 < q) by (unfold q; apply powerRZ_lt; lra). rewrite E at 1. replace (IZR k * q / q) with (IZR k) by (field; lra).
  replace (Int_part (IZR k + 1 / 2)) with k; [symmetry; exact E|]. symmetry. apply int_part. lra.
Qed.
Theorem C147_filled_in_partial w : short (w_rad w) ->
  let b := filled_in w in x_temp b = w_temp w /\ x_flow b = w_flow w /\ x_flowunits b = w_flowunits w /\ x_den b = w_den w /\ x_por b = w_por w /\
  x_rad b = w_rad w /\ x_radunits b = w_radunits w /\ x_hrt b = w_hrt w /\ x_crt b = w_crt w /\ x_dosage b = w_dosage w.
Proof. intros S. cbn. repeat split. apply format4_short, S. Qed.
(** A radius with more digits is rounded. *)
Theorem C147_radius_refuted w : w_rad w = dec 123456 8 -> x_rad (filled_in w) = dec 1235 6.
Proof.
  intros E. cbn. rewrite E. unfold format4. rewrite (magnitude_ok _ (-3)) by (unfold dec; simpl; lra). unfold dec. simpl.
  match goal with |- IZR (Int_part ?x) * _ = _ => replace (Int_part x) with 1235%Z end; [simpl; lra|]. symmetry. apply int_part. simpl. lra.
Qed.
(** Reading back a saved workbook restores the page exactly if nothing was changed on it. *)
Theorem C147_saved_refuted w b : filled_in (saved w b) = b <-> b = filled_in w.
Proof. unfold saved. split; intros E; symmetry; exact E. Qed.
(** Sizes of a contactor in a workbook are not used. *)
Theorem C147_sizes_refuted w : filled_sizes w = w <-> w = default_sizes.
Proof. unfold filled_sizes. split; intros E; symmetry; exact E. Qed.
Example C147_met : short (dec 103 5).
Proof. exists (-3)%Z, 1030%Z. unfold dec. simpl. split; lra. Qed.

(** * C157: the contactor of the page *)
(** cm in a unit of length and ml in a unit of volume, for the units the page offers *)
Inductive page_length : string -> R -> Prop := pl_m : page_length "m" 100 | pl_cm : page_length "cm" 1 | pl_ft : page_length "ft" (dec 3048 2) | pl_in : page_length "in" (dec 254 2).
Inductive page_volume : string -> R -> Prop := pv_L : page_volume "L" 1000 | pv_mL : page_volume "mL" 1 | pv_gal : page_volume "gal" (dec 3785411784 6).
(** ml/s in a unit of flow *)
Inductive page_flow : string -> R -> Prop := pf_m3 : page_flow "m3/s" (10 ^ 6) | pf_gpm : page_flow "gpm" (dec 3785411784 6 / 60) |
  pf_MGD : page_flow "MGD" (10 ^ 6 * dec 3785411784 6 / (24 * 60 * 60)) | pf_Lpm : page_flow "Lpm" (1000 / 60) | pf_mL : page_flow "mL/min" (1 / 60).
(** [sizes] and [b] with units of the page; the radius in cm *)
Definition offered (z : sizes) (b : pboxes) (kl kh kv q : R) : Prop :=
  page_length (z_ldunits z) kl /\ page_length (z_heightunits z) kh /\ page_volume (z_volunits z) kv /\ page_flow (x_flowunits b) q /\ x_radunits b = "cm".
(** The volume, in ml, that the page asks for: the square tank's, or the one entered. *)
Definition selected_volume (z : sizes) (kl kh kv : R) : R :=
  if String.eqb (z_select z) "Dimensions" then (z_ld z * kl) * (z_ld z * kl) * (z_height z * kh) else z_vol z * kv.
Lemma length_row u k : page_length u k -> lookup (lower u) length_convert = Some k.
Proof. intros []; cbn; try reflexivity. all: apply f_equal; unfold cm_per_ft, dec; field. Qed.
Lemma volume_row u k : page_volume u k -> lookup (lower u) volume_convert = Some k.
Proof. intros []; cbn; try reflexivity. all: apply f_equal; unfold lpg, dec; field. Qed.
Lemma flow_row u k : page_flow u k -> lookup (lower u) flow_convert = Some k.
Proof. intros []; cbn; try reflexivity. all: apply f_equal; unfold lpg, cm_per_ft, min_per_day, dec; field. Qed.
Lemma page_builds z b kl kh kv q : offered z b kl kh kv q -> page_built z b =
  Ok {| b_shape := {| g_format := "Square"; g_length := Some (z_ld z * kl); g_width := None; g_height := Some (z_height z * kh); g_volume := Some (z_vol z * kv) |};
        b_density := Some (x_den b); b_porosity := Some (x_por b); b_radius := Some (x_rad b * 1); b_dw := density (x_temp b); b_flow := Some (x_flow b * q);
        b_hrt := Some (x_hrt b * 60); b_crt := Some (x_crt b * 60); b_dosage := Some (x_dosage b); b_errors := 0 |}.
Proof.
  intros (L & H & V & Q & RU). apply length_row in L, H. apply volume_row in V. apply flow_row in Q.
  destruct z as [sel ld ldu he heu vo vou], b as [te fl flu de po ra rau hr cr do_]. cbn [z_ld z_ldunits z_height z_heightunits z_vol z_volunits x_flowunits x_radunits] in *. subst rau.
  unfold page_built, construct. set (cs := contactor_session _ _). set (ps := pac_session _).
  change (typed cs) with (Ok tt : res unit). cbn [bind]. match goal with |- context [forallb ?g ps] => change (forallb g ps) with true end. cbn [bind].
  assert (C : forall t k u key x, lookup (lower u) t = Some k -> forall sh, lookup key sh = Some (num_row x u) -> entry sh t key = Ok (Some (Some (x * k)))).
  { intros t k u key x E sh S. unfold entry. rewrite S. cbn [r_units num_row]. rewrite E. reflexivity. }
  rewrite (C length_convert 1 "cm" "radius" ra eq_refl (lower_index ps) eq_refl). cbn [bind].
  unfold geometry. rewrite (C _ _ _ "length/diameter" ld L (lower_index cs) eq_refl). cbn [bind].
  change (format_of (lower_index cs)) with "Square". change (width_of (lower_index cs) (Some (ld * kl))) with (None : M_Extra.num).
  rewrite (C _ _ _ "height" he H (lower_index cs) eq_refl). cbn [bind]. change (mem_key "volume" (lower_index cs)) with true.
  cbn [andb undetermined String.eqb Ascii.eqb Bool.eqb M_Extra.mulN isnan].
  rewrite (C _ _ _ "volume" vo V (lower_index cs) eq_refl). cbn [bind].
  rewrite (C _ _ _ "flow" fl Q (lower_index cs) eq_refl). cbn [bind].
  rewrite (C time_convert 60 "min" "hrt" hr eq_refl (lower_index cs) eq_refl), (C time_convert 60 "min" "crt" cr eq_refl (lower_index cs) eq_refl). cbn [bind].
  reflexivity.
Qed.
(** Whatever is selected, the contactor has the volume entered: right if 'Volume' is selected. *)
Theorem C157_volume_partial z b kl kh kv q : offered z b kl kh kv q -> exists w, page_built z b = Ok w /\ b_errors w = 0%Z /\
  g_volume (b_shape w) = Some (z_vol z * kv) /\ b_flow w = Some (x_flow b * q) /\
  (z_select z = "Volume" -> g_volume (b_shape w) = Some (selected_volume z kl kh kv)).
Proof.
  intros O. eexists. split; [apply page_builds; exact O|]. cbn [b_errors b_shape g_volume b_flow]. repeat split. intros E. unfold selected_volume. rewrite E. reflexivity.
Qed.
(** With 'Dimensions' it is wrong, unless the two happen to agree. *)
Theorem C157_dimensions_refuted z b kl kh kv q : offered z b kl kh kv q -> z_select z = "Dimensions" ->
  z_vol z * kv <> (z_ld z * kl) * (z_ld z * kl) * (z_height z * kh) ->
  exists w, page_built z b = Ok w /\ g_width (b_shape w) = None /\ g_volume (b_shape w) <> Some (selected_volume z kl kh kv).
Proof.
  intros O S N. eexists. split; [apply page_builds; exact O|]. cbn [b_shape g_width g_volume]. split; [reflexivity|].
  unfold selected_volume. rewrite S. cbn [String.eqb Ascii.eqb Bool.eqb]. intros E. apply N. congruence.
Qed.
(** It makes no difference to the results: neither the sizes nor the flow do. *)
Theorem C157_results_partial solve z b kl kh kv q z' b' kl' kh' kv' q' compounds : offered z b kl kh kv q -> offered z' b' kl' kh' kv' q' ->
  x_temp b' = x_temp b -> x_den b' = x_den b -> x_por b' = x_por b -> x_rad b' = x_rad b -> x_hrt b' = x_hrt b -> x_crt b' = x_crt b -> x_dosage b' = x_dosage b ->
  page_run solve z' b' compounds = page_run solve z b compounds.
Proof.
  intros O O' E1 E2 E3 E4 E5 E6 E7. unfold page_run. rewrite (page_builds _ _ _ _ _ _ O), (page_builds _ _ _ _ _ _ O').
  cbn [bind b_density b_porosity b_radius b_hrt b_crt b_dosage b_dw]. rewrite E1, E2, E3, E4, E5, E6, E7. reflexivity.
Qed.
(** The page as it starts, with the carbon of its defaults. *)
Definition start_boxes : pboxes :=
  {| x_temp := 10; x_flow := 5; x_flowunits := "m3/s"; x_den := dec 8034 4; x_por := dec 641 3; x_rad := dec 103 5; x_radunits := "cm"; x_hrt := 60; x_crt := 60; x_dosage := 20 |}.
Example C157_met : offered default_sizes start_boxes 100 100 1000 (10 ^ 6) /\
  z_vol default_sizes * 1000 = (z_ld default_sizes * 100) * (z_ld default_sizes * 100) * (z_height default_sizes * 100).
Proof. split; [repeat split; constructor|]. cbn. lra. Qed.
Example C157_refuted_met : let z := {| z_select := "Dimensions"; z_ld := 10; z_ldunits := "ft"; z_height := 5; z_heightunits := "m"; z_vol := 500000; z_volunits := "L" |} in
  offered z start_boxes (dec 3048 2) 100 1000 (10 ^ 6) /\ z_vol z * 1000 <> (z_ld z * dec 3048 2) * (z_ld z * dec 3048 2) * (z_height z * 100).
Proof. cbn zeta. split; [repeat split; constructor|]. cbn [z_vol z_ld z_height]. unfold dec. lra. Qed.

Print Assumptions C143_units.
Print Assumptions C144_two_compounds_partial.
Print Assumptions C144_one_refuted.
Print Assumptions C144_three_refuted.
Print Assumptions C145_doses_partial.
Print Assumptions C145_target_doses_refuted.
Print Assumptions C146_same_unit_partial.
Print Assumptions C146_units_refuted.
Print Assumptions C147_filled_in_partial.
Print Assumptions C147_radius_refuted.
Print Assumptions C147_saved_refuted.
Print Assumptions C147_sizes_refuted.
Print Assumptions C157_volume_partial.
Print Assumptions C157_dimensions_refuted.
Print Assumptions C157_results_partial.
