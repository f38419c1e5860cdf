(** Property C176: what reaches the resin of a carbon-resin train. *)
From Coq Require Import FunctionalExtensionality Reals List Arith Bool String Ascii Lra Lia ZArith.
From Verif Require Import Lib_Py M_GacSheet M_GacFun P_GacFun M_GacSmart P_GacSmart M_GacMin M_IxUnc P_IxUnc M_Units M_Tools M_LeadLag P_LeadLag Props_LeadLag.
Import ListNotations.
Open Scope R_scope.
Open Scope string_scope.
Local Notation length := List.length.

Section Untreated.
Variables (ions : list (string * ion)) (counterions : list string) (raw : frame).
Variables (gac : R -> string -> series -> res series) (ix : R * string -> frame -> res (string -> list R)).

Lemma leads_none (g : string -> res series) c : forall compounds leads,
  mapM (fun c => do r <- g c; match r with [] => Err IndexError | _ => Ok (c, r) end) compounds = Ok leads -> ~ In c compounds -> lookup c leads = None.
Proof.
  induction compounds as [|a l IH]; intros leads LD N; cbn in LD; [assert (leads = []) as -> by congruence; reflexivity|].
  destruct (bind_inv _ _ _ LD) as (x & E1 & E2). destruct (bind_inv _ _ _ E2) as (xs & E3 & E4). destruct (bind_inv _ _ _ E1) as (r & G & E5).
  assert (leads = x :: xs) as -> by congruence. assert (x = (a, r)) as -> by (destruct r; [discriminate E5|congruence]). cbn [lookup].
  destruct (String.eqb_spec c a) as [-> |Q]; [destruct N; left; reflexivity|]. apply (IH xs E3). intros I. apply N. right. exact I.
Qed.

(** The full statement, "a compound for which the carbon vessel is not simulated reaches the
    resin with the concentration of the raw water", fails in every run that ends: whatever
    the raw water holds, the resin is simulated with 1e-16 of that compound throughout and
    the reported concentration between the vessels is 0. *)
Theorem C176_untreated_refuted : forall o s compounds flow o' st c,
  run_LL_gac_ix ions counterions raw gac ix o s compounds flow = Ok (o', st) ->
  In c (fr_cols raw) -> In c (fr_cols (o_cin o)) -> ~ In c compounds -> ~ In c counterions ->
  fr_time (o_cin o') = tvals2 s /\
  fr_val (o_cin o') c = map (fun _ => 1 / 10 ^ 16) (tvals2 s) /\
  lookup c (s_mid_results st) = Some (map (fun t => (t, 0)) (tvals2 s)) /\
  exists u, ix (o_ix_flow o') (o_cin o') = Ok u.
Proof.
  intros o s compounds flow o' st c H IR IC NC NI. unfold run_LL_gac_ix in H.
  destruct (bind_inv _ _ _ H) as (o1 & SF & H1). cbv zeta in H1. destruct (bind_inv _ _ _ H1) as ([] & K1 & H2). destruct (bind_inv _ _ _ H2) as (leads & LD & H3).
  destruct (bind_inv _ _ _ H3) as ([] & LE & H4). destruct (bind_inv _ _ _ H4) as ([] & K2 & H5). destruct (bind_inv _ _ _ H5) as (conv & CV & H6).
  destruct (bind_inv _ _ _ H6) as (effs & EF & H7). clear H H1 H2 H3 H4 H5 H6.
  destruct (Nat.eqb_spec (length (upto s)) (length (tvals2 s))) as [LL|]; [|discriminate LE]. pose proof (upto_all s LL) as UA. clear LE LL.
  destruct (converted_inv _ _ _ _ CV) as (u & U & EC).
  assert (R1 := leads_none (fun c => gac (o_gac_flow o1) c (combine (tvals s) (on_times raw s c (tvals s)))) c compounds leads LD NC).
  assert (OC : o_cin o1 = o_cin o).
  { unfold share_flow in SF. destruct flow as [f| | |]; try congruence. destruct (String.eqb f "use gac"); [congruence|]. destruct (String.eqb f "use ix"); [|congruence].
    destruct (lookup (snd (o_ix_flow o)) flow_converter); [|discriminate SF]. assert (E : o1 = set_gac_flow o (fst (o_ix_flow o) * r)) by congruence. rewrite E. reflexivity. }
  match type of H7 with Ok (?A, ?B) = _ => assert (EO : o' = A) by congruence; assert (EST : st = B) by congruence end.
  match type of EO with o' = set_cin o1 ?X => set (cin := X) in * end.
  assert (MC : mem c counterions = false).
  { unfold mem. destruct (existsb (String.eqb c) counterions) eqn:E; [|reflexivity]. exfalso. apply existsb_exists in E as (y & Y1 & Y2). apply String.eqb_eq in Y2. subst y. apply NI, Y1. }
  rewrite EO. cbn [set_cin o_ix_flow o_cin]. split; [reflexivity|]. split; [|split].
  - unfold cin. cbn [fr_val]. rewrite MC, R1, UA, map_map. apply map_ext. intros _. unfold lift. destruct (rleb 0 0) eqn:E; [reflexivity|apply rleb_false in E; lra].
  - rewrite EST. cbn [s_mid_results]. rewrite UA.
    assert (IU : In c (use_compounds raw o1 compounds)).
    { unfold use_compounds. apply nodup_In, in_or_app. right. apply filter_In. split; [exact IR|]. rewrite OC. apply existsb_exists. exists c. split; [exact IC|apply String.eqb_refl]. }
    clear - IU R1. induction (use_compounds raw o1 compounds) as [|a l IH]; [destruct IU|]. cbn [map lookup]. destruct (String.eqb_spec c a) as [-> |N].
    + rewrite R1. f_equal. clear. induction (tvals2 s) as [|t l IH]; [reflexivity|]. cbn. f_equal. exact IH.
    + destruct IU as [-> |IU]; [congruence|]. apply IH, IU.
  - exists u. exact U.
Qed.
(** The ions of the resin sheet that the carbon does not touch do keep their value: an ion
    that the influent sheet of the resin holds steady at a positive value is fed to the resin at that value. *)
Theorem C176_counterions_partial : forall o s compounds flow o' st c v,
  run_LL_gac_ix ions counterions raw gac ix o s compounds flow = Ok (o', st) -> NoDup compounds ->
  In c counterions -> 0 < v -> fr_time (o_cin o) <> [] -> fr_val (o_cin o) c = map (fun _ => v) (fr_time (o_cin o)) ->
  fr_val (o_cin o') c = map (fun _ => v) (tvals2 s).
Proof.
  intros o s compounds flow o' st c v H ND IC P NT EV.
  destruct (C80_carbon_resin ions counterions raw gac ix o s compounds flow o' st H ND) as (lead & u & _ & _ & _ & _ & K & _).
  rewrite (K c IC), EV, mean_const by exact NT. unfold floored. apply map_ext. intros _.
  match goal with |- context [if ?b then _ else _] => destruct b eqn:E end; [|reflexivity].
  first [apply rleb_true in E; lra | destruct (Rle_dec v 0); [lra|discriminate]].
Qed.
End Untreated.
Print Assumptions C176_untreated_refuted.
Print Assumptions C176_counterions_partial.

(** Two compounds at 5 in both sheets and a counterion at 3; only A is simulated in the carbon. *)
Definition two_raw : frame := {| fr_time := [0; 100]; fr_cols := ["A"; "B"; "CL"]; fr_val := fun c => if String.eqb c "CL" then [3; 3] else [5; 5] |}.
Definition two_cin : frame := two_raw.
Definition two_ions : list (string * ion) := [("A", {| i_unit := "meq"; i_mw := 1 |}); ("B", {| i_unit := "meq"; i_mw := 1 |}); ("CL", {| i_unit := "meq"; i_mw := 1 |})].
Definition two_obj : obj := {| o_gac_flow := 7; o_ix_flow := (1, "gpm"); o_cin := two_cin |}.
Lemma upto_1 : upto 1 = tvals2 1.
Proof.
  unfold upto, tvals2. rewrite tvals_1. cbn [removelast filter]. cbn [INR].
  assert (T : forall x, x <= 1 - 1 / 4 -> rleb x (1 - 1 / 4) = true) by (intros; apply rleb_true; assumption).
  assert (F : forall x, 1 - 1 / 4 < x -> rleb x (1 - 1 / 4) = false) by (intros; apply rleb_false; assumption).
  rewrite (T (0 / 4)), (T (1 / 4)), (T ((1 + 1) / 4)), (T ((1 + 1 + 1) / 4)), (F ((1 + 1 + 1 + 1) / 4)) by lra. reflexivity.
Qed.
Example C176_met : exists o' st, run_LL_gac_ix two_ions ["CL"] two_raw demo_gac demo_ix two_obj 1 ["A"] (FlowStr "use gac") = Ok (o', st) /\
  In "B" (fr_cols two_raw) /\ In "B" (fr_cols (o_cin two_obj)) /\ ~ In "B" ["A"] /\ ~ In "B" ["CL"] /\ NoDup ["A"] /\ In "CL" ["CL"] /\
  fr_time (o_cin two_obj) <> [] /\ fr_val (o_cin two_obj) "CL" = map (fun _ => 3) (fr_time (o_cin two_obj)) /\ fr_val two_raw "B" = [5; 5] /\ tvals2 1 <> [].
Proof.
  assert (NE : exists x l, tvals2 1 = x :: l) by (unfold tvals2; rewrite tvals_1; cbn [removelast]; eexists; eexists; reflexivity).
  destruct NE as (x & l & NE).
  assert (R : exists o' st, run_LL_gac_ix two_ions ["CL"] two_raw demo_gac demo_ix two_obj 1 ["A"] (FlowStr "use gac") = Ok (o', st)).
  { unfold run_LL_gac_ix, share_flow. cbn [String.eqb Ascii.eqb Bool.eqb bind]. rewrite upto_1, Nat.eqb_refl.
    unfold known. match goal with |- context [forallb ?f ?l] => change (forallb f l) with true end. cbn [bind mapM demo_gac].
    match goal with |- context [forallb ?f ?l] => change (forallb f l) with true end. cbn [bind]. rewrite NE.
    unfold converted, demo_ix. cbn [bind]. unfold conv_iex_u. cbn. eexists. eexists. reflexivity. }
  destruct R as (o' & st & R). exists o', st. repeat split; try exact R; cbn; try tauto; try (intros [Q|[]]; discriminate Q); try discriminate; try (rewrite NE; discriminate).
  constructor; [intros []|constructor].
Qed.
