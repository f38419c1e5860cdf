(** Proofs about parameter sheets (C05-C07). *)
From Coq Require Import List String Ascii Reals Bool Arith Lra Lia.
From Verif Require Import Lib_Py M_Units M_Params S_Units S_Params P_Units.
Import ListNotations.
Open Scope string_scope.
Local Notation length := List.length.

Lemma lookup_In {A} k (d : list (string * A)) v : lookup k d = Some v -> In (k, v) d.
Proof.
  induction d as [|[k' v'] d IH]; simpl; [discriminate|].
  destruct (String.eqb_spec k k') as [->|]; intros H; [left; congruence|right; auto].
Qed.

(** ** Coherence of every kind *)

Definition split_in (A B : list string) (u : string) : bool :=
  match split_compound u with
  | [(x, y)] => mem_str x A && mem_str y B
  | _ => false
  end.

Lemma split_in_spec A B u : split_in A B u = true ->
  exists a b, split_compound u = [(a, b)] /\ In a A /\ In b B.
Proof.
  unfold split_in. destruct (split_compound u) as [|[x y] [|? ?]]; try discriminate.
  intros H. apply andb_true_iff in H. destruct H as (H1 & H2).
  exists x, y. repeat split; apply mem_str_In; assumption.
Qed.

Lemma compound_coherent_gen A B cn cd rl U :
  coherent_converter A cn -> coherent_converter B cd ->
  forallb (split_in A B) U = true ->
  coherent_compound U (conv_compound cn cd rl).
Proof.
  intros (fn & (N1 & N2 & N3) & En) (fd & (D1 & D2 & D3) & Ed) HU.
  assert (S : forall u, In u U -> exists a b, split_compound u = [(a, b)] /\ In a A /\ In b B).
  { intros u Hu. rewrite forallb_forall in HU. apply split_in_spec, HU, Hu. }
  set (p := fun u => match split_compound u with x :: _ => x | [] => ("", "") end).
  assert (P : forall u, In u U -> exists a b, split_compound u = [(a, b)] /\
                p u = (a, b) /\ In a A /\ In b B).
  { intros u Hu. destruct (S u Hu) as (a & b & E & Ha & Hb). exists a, b.
    unfold p. rewrite E. auto. }
  exists (fun u v => fn (fst (p u)) (fst (p v)) / fd (snd (p u)) (snd (p v)))%R.
  assert (NZ : forall b d, In b B -> In d B -> fd b d <> 0%R).
  { intros b d Hb Hd' E. specialize (D2 b d Hb Hd'). rewrite E in D2. lra. }
  split; [split; [|split]|].
  - intros u Hu. destruct (P u Hu) as (a & b & _ & -> & Ha & Hb). simpl.
    rewrite N1, D1 by assumption. field.
  - intros u v Hu Hv. destruct (P u Hu) as (a & b & _ & -> & Ha & Hb).
    destruct (P v Hv) as (c & d & _ & -> & Hc & Hd). simpl.
    assert (X := D2 b d Hb Hd). assert (Y := N2 a c Ha Hc).
    transitivity ((fn a c * fn c a) / (fd b d * fd d b))%R.
    + field. split; apply NZ; assumption.
    + rewrite X, Y. field.
  - intros u v w Hu Hv Hw. destruct (P u Hu) as (a & b & _ & -> & Ha & Hb).
    destruct (P v Hv) as (c & d & _ & -> & Hc & Hd).
    destruct (P w Hw) as (e & f & _ & -> & He & Hf). simpl.
    rewrite <- (N3 a c e), <- (D3 b d f) by assumption.
    field. split; apply NZ; assumption.
  - intros u v t Hu Hv. destruct (P u Hu) as (a & b & Eu & -> & Ha & Hb).
    destruct (P v Hv) as (c & d & Ev & -> & Hc & Hd). cbn [fst snd].
    exists (rl a b).
    unfold conv_compound, compound_parts, io_bind, io_lift. rewrite Eu, Ev. simpl.
    rewrite En by assumption. rewrite Ed by assumption. reflexivity.
Qed.

Lemma coherent_simple_compound U c : coherent_converter U c -> coherent_compound U c.
Proof.
  intros (f & F & E). exists f. split; [exact F|]. intros a b t Ha Hb. exists a.
  apply E; assumption.
Qed.

(** All accepted spellings, including the solver's own target units. *)
Definition full_units (k : kind) : list string :=
  match k with
  | Length => keys si_length
  | Time => keys si_time
  | Mass => keys si_weight
  | Volume => keys si_volume
  | Velocity => slash_units (keys si_length) (keys si_time)
  | Density => slash_units (keys si_weight) (keys si_volume)
  | Diffusivity => slash_units (keys si_area) (keys si_time)
  | FlowRate => "gpm" :: slash_units (keys si_volume) (keys si_time)
  | CapacityMass => slash_units conc_units (keys si_weight)
  | CapacityVolume => slash_units conc_units (keys si_volume)
  | Scalar => []
  end.

Lemma conc11 : coherent_converter conc_units (conv_conc 1 1).
Proof.
  apply coherent_conv_units; [reflexivity| |reflexivity].
  intros c; apply conc_coefs_nz; lra.
Qed.

Lemma kind_coherent k : k <> Scalar ->
  coherent_compound (full_units k) (converter_of_kind k).
Proof.
  intros Hk.
  destruct k; try congruence; simpl converter_of_kind; unfold full_units.
  - apply coherent_simple_compound, length_conv_coherent.
  - apply (compound_coherent_gen _ _ _ _ _ _ length_conv_coherent time_conv_coherent).
    vm_compute; reflexivity.
  - apply coherent_simple_compound, time_conv_coherent.
  - apply (compound_coherent_gen _ _ _ _ _ _ weight_conv_coherent volume_conv_coherent).
    vm_compute; reflexivity.
  - apply (compound_coherent_gen _ _ _ _ _ _ area_conv_coherent time_conv_coherent).
    vm_compute; reflexivity.
  - apply (compound_coherent_gen _ _ _ _ _ _ volume_conv_coherent time_conv_coherent).
    vm_compute; reflexivity.
  - apply (compound_coherent_gen _ _ _ _ _ _ conc11 weight_conv_coherent).
    vm_compute; reflexivity.
  - apply (compound_coherent_gen _ _ _ _ _ _ conc11 volume_conv_coherent).
    vm_compute; reflexivity.
  - apply coherent_simple_compound, weight_conv_coherent.
  - apply coherent_simple_compound, volume_conv_coherent.
Qed.

Lemma units_incl k u : In u (units_of_kind k) -> In u (full_units k).
Proof.
  assert (H : forallb (fun x => mem_str x (full_units k)) (units_of_kind k) = true)
    by (destruct k; vm_compute; reflexivity).
  rewrite forallb_forall in H. intros Hu. apply mem_str_In, H, Hu.
Qed.

Lemma table_dim p k : lookup p kind_of = Some k -> k <> Scalar ->
  exists uo fn, lookup p u_out_table = Some (Some uo) /\
    lookup p u_fn_table = Some fn /\ In uo (full_units k) /\
    (forall a b t f s t', converter_of_kind k a b t = Ok (f, s, b, t') ->
       fn (Some a) (Some b) t = Ok (f, t')).
Proof.
  intros H Hk. unfold kind_of in H. simpl in H.
  repeat (match type of H with
          | (if String.eqb p ?x then _ else _) = _ => destruct (String.eqb_spec p x) as [->|?]
          end; [injection H as <-; first [congruence|
                 do 2 eexists; split; [reflexivity|]; split; [reflexivity|];
                 split; [apply mem_str_In; vm_compute; reflexivity|];
                 intros a b t f s t' E; cbn [converter_of_kind] in E;
                 cbv beta delta [simple_conv compound_conv io_bind] iota;
                 rewrite E; reflexivity]|]).
  discriminate.
Qed.

Lemma table_scalar p : lookup p kind_of = Some Scalar ->
  lookup p u_out_table = Some None /\ lookup p u_fn_table = Some same_conv.
Proof.
  intros H. apply lookup_In in H. unfold kind_of in H. simpl in H.
  repeat (destruct H as [H|H]; [first [discriminate H|injection H as <-; split; reflexivity]|]).
  destruct H.
Qed.

(** The converted value of a dimensioned row. *)
Lemma conv_row_dim p k x u t :
  lookup p kind_of = Some k -> k <> Scalar -> In u (units_of_kind k) ->
  exists uo f s, lookup p u_out_table = Some (Some uo) /\
    converter_of_kind k u uo t = Ok (f, s, uo, t) /\
    conv_row p {| p_value := PNum x; p_units := Some u |} t
    = Ok (((x * f)%R, Some uo), t).
Proof.
  intros Hp Hk Hu. destruct (table_dim p k Hp Hk) as (uo & fn & Eo & Ef & Hin & HF).
  destruct (kind_coherent k Hk) as (fac & _ & EC).
  destruct (EC u uo t (units_incl _ _ Hu) Hin) as (s & Es).
  exists uo, (fac u uo), s. split; [exact Eo|]. split; [exact Es|].
  unfold conv_row, io_bind, io_opt. rewrite Eo, Ef. simpl.
  rewrite (HF _ _ _ _ _ _ Es). reflexivity.
Qed.

Lemma conv_row_scalar p r t : lookup p kind_of = Some Scalar ->
  conv_row p r t
  = Ok ((match p_value r with PNum x => x | PStr _ => 1%R end, None), t).
Proof.
  intros H. destruct (table_scalar p H) as (E1 & E2).
  unfold conv_row, io_bind, io_opt. rewrite E1, E2. simpl.
  destruct (p_value r); [rewrite Rmult_1_r|]; reflexivity.
Qed.

Lemma conv_row_same kr1 kr2 t : same_row kr1 kr2 ->
  conv_row (lower (fst kr1)) (lower_row (snd kr1)) t
  = conv_row (lower (fst kr2)) (lower_row (snd kr2)) t.
Proof.
  intros H; destruct H as [p1 p2 v u1 u2 Ep Hk|p1 p2 k x1 u1 x2 u2 Ep Hk Hns HQ]; simpl.
  - rewrite <- Ep, !conv_row_scalar by exact Hk. reflexivity.
  - destruct HQ as (H1 & H2 & f & s & Ef & ->).
    unfold lower_row; simpl. rewrite <- Ep.
    destruct (table_dim _ k Hk Hns) as (uo & fn & Eo & EF & Hin & HF).
    destruct (kind_coherent k Hns) as (fac & (_ & _ & F3) & EC).
    destruct (EC _ _ [] (units_incl _ _ H1) (units_incl _ _ H2)) as (s' & Es').
    rewrite Es' in Ef. injection Ef as <- _.
    destruct (EC _ uo t (units_incl _ _ H1) Hin) as (s1 & Es1).
    destruct (EC _ uo t (units_incl _ _ H2) Hin) as (s2 & Es2).
    unfold conv_row, io_bind, io_opt. rewrite Eo, EF. simpl.
    rewrite (HF _ _ _ _ _ _ Es1), (HF _ _ _ _ _ _ Es2). simpl.
    rewrite <- (F3 (lower u1) (lower u2) uo) by (first [assumption|apply units_incl; assumption]).
    unfold io_ret. rewrite Rmult_assoc. reflexivity.
Qed.

Lemma conv_params_same s1 s2 : Forall2 same_row s1 s2 -> forall t,
  conv_params (lower_sheet s1) t = conv_params (lower_sheet s2) t.
Proof.
  induction 1 as [|kr1 kr2 s1 s2 Hr Hs IH]; intros t; [reflexivity|].
  simpl. unfold io_bind.
  rewrite (conv_row_same _ _ t Hr).
  assert (Ek : lower (fst kr1) = lower (fst kr2)) by (destruct Hr; assumption).
  rewrite Ek.
  destruct (conv_row (lower (fst kr2)) (lower_row (snd kr2)) t) as [[r t']|e];
    [|reflexivity].
  rewrite IH. reflexivity.
Qed.

Lemma same_keys s1 s2 : Forall2 same_row s1 s2 ->
  keys (lower_sheet s1) = keys (lower_sheet s2).
Proof.
  induction 1 as [|kr1 kr2 s1 s2 Hr Hs IH]; [reflexivity|].
  unfold keys, lower_sheet in *. simpl. f_equal; [|exact IH].
  destruct Hr; assumption.
Qed.

Lemma conv_params_data_same s1 s2 t : Forall2 same_row s1 s2 ->
  conv_params_data s1 t = conv_params_data s2 t.
Proof.
  intros H. unfold conv_params_data. rewrite (same_keys _ _ H).
  destruct (has_dup _); [reflexivity|]. destruct (negb _); [reflexivity|].
  unfold io_bind. rewrite (conv_params_same _ _ H). reflexivity.
Qed.

(** ** Shape of a successful conversion *)

Lemma has_dup_NoDup l : has_dup l = false -> NoDup l.
Proof.
  induction l as [|x l IH]; simpl; intros H; [constructor|].
  apply orb_false_iff in H. destruct H as (H1 & H2). constructor; [|auto].
  intros Hin. apply mem_str_In in Hin. congruence.
Qed.

Lemma In_lookup {A} k (d : list (string * A)) v :
  NoDup (keys d) -> In (k, v) d -> lookup k d = Some v.
Proof.
  induction d as [|[k' v'] d IH]; simpl; intros ND H; [tauto|].
  inversion ND; subst. destruct H as [H|H].
  - injection H as -> ->. rewrite String.eqb_refl. reflexivity.
  - destruct (String.eqb_spec k k') as [->|]; [|auto].
    exfalso. apply H2. unfold keys. apply in_map_iff. exists (k', v); auto.
Qed.

Lemma lookup_app {A} k (d e : list (string * A)) :
  lookup k (d ++ e)%list = match lookup k d with Some v => Some v | None => lookup k e end.
Proof.
  induction d as [|[k' v'] d IH]; simpl; [reflexivity|].
  destruct (String.eqb k k'); auto.
Qed.

Lemma lookup_None_keys {A} k (d : list (string * A)) :
  lookup k d = None <-> ~ In k (keys d).
Proof.
  induction d as [|[k' v'] d IH]; simpl; [tauto|].
  destruct (String.eqb_spec k k') as [->|Hn].
  - split; [discriminate|intros H; exfalso; apply H; auto].
  - rewrite IH. split; [intros H [E|E]; [congruence|auto]|tauto].
Qed.

Lemma conv_params_keys s t p t' : conv_params s t = Ok (p, t') -> keys p = keys s.
Proof.
  revert t p t'; induction s as [|[k r] s IH]; simpl; intros t p t' H.
  - injection H as <- <-. reflexivity.
  - unfold io_bind in H. destruct (conv_row k r t) as [[r' t1]|]; [|discriminate].
    destruct (conv_params s t1) as [[rest t2]|] eqn:E; [|discriminate].
    injection H as <- <-. simpl. f_equal. eapply IH; eassumption.
Qed.

Lemma conv_params_row s t p t' k r :
  conv_params s t = Ok (p, t') -> NoDup (keys s) -> In (k, r) s ->
  exists t1 t2 r', conv_row k r t1 = Ok (r', t2) /\ lookup k p = Some r'.
Proof.
  revert t p t'; induction s as [|[k0 r0] s IH]; simpl; intros t p t' H ND Hin; [tauto|].
  unfold io_bind in H. destruct (conv_row k0 r0 t) as [[r' t1]|] eqn:E0; [|discriminate].
  destruct (conv_params s t1) as [[rest t2]|] eqn:E; [|discriminate].
  injection H as <- <-. inversion ND; subst. destruct Hin as [Hin|Hin].
  - injection Hin as -> ->. exists t, t1, r'. simpl. rewrite String.eqb_refl. auto.
  - destruct (IH _ _ _ E H2 Hin) as (a & b & c & H3 & H4). exists a, b, c.
    split; [exact H3|]. simpl. destruct (String.eqb_spec k k0) as [->|]; [|exact H4].
    exfalso. apply H1. unfold keys. apply in_map_iff. exists (k0, r); auto.
Qed.

(** [rename] is injective on the labels that can occur. *)
Definition labels : list string :=
  ("VR" :: "Q" :: keys u_out_table)%list.

Lemma rename_inj a b : In a labels -> In b labels -> rename a = rename b -> a = b.
Proof.
  assert (H : forallb (fun a => forallb (fun b =>
     negb (String.eqb (rename a) (rename b)) || String.eqb a b) labels) labels = true)
    by (vm_compute; reflexivity).
  rewrite forallb_forall in H. intros Ha Hb E. specialize (H a Ha).
  rewrite forallb_forall in H. specialize (H b Hb). cbv beta in H.
  rewrite E, String.eqb_refl in H. simpl in H. apply String.eqb_eq; exact H.
Qed.

Lemma lookup_renamed (d : csheet) k :
  incl (keys d) labels -> In k labels ->
  lookup (rename k) (map (fun kr => (rename (fst kr), snd kr)) d) = lookup k d.
Proof.
  induction d as [|[k' v'] d IH]; simpl; intros Hi Hk; [reflexivity|].
  assert (Hk' : In k' labels) by (apply Hi; left; reflexivity).
  assert (Hd : incl (keys d) labels) by (intros x Hx; apply Hi; right; exact Hx).
  destruct (String.eqb_spec (rename k) (rename k')) as [E|E].
  - apply rename_inj in E; auto. subst. rewrite String.eqb_refl. reflexivity.
  - destruct (String.eqb_spec k k') as [->|]; [congruence|auto].
Qed.

Lemma conv_params_data_inv s t out t' :
  conv_params_data s t = Ok (out, t') ->
  NoDup (keys (lower_sheet s)) /\ incl (keys (lower_sheet s)) (keys u_out_table) /\
  exists p t1 p' t2 q, conv_params (lower_sheet s) t = Ok (p, t1) /\
    add_velocity p t1 = Ok (p', t2) /\ t' = t2 /\
    Q_calc (dict_from_data p') = Ok q /\
    out = map (fun kr => (rename (fst kr), snd kr))
              (p' ++ [("Q", (q, Some "meq/L"))])%list.
Proof.
  unfold conv_params_data. intros H.
  destruct (has_dup (keys (lower_sheet s))) eqn:ED; [discriminate|].
  destruct (forallb _ _) eqn:EF; [|discriminate]. simpl in H.
  split; [apply has_dup_NoDup; exact ED|]. split.
  { intros x Hx. rewrite forallb_forall in EF. specialize (EF x Hx).
    unfold mem_key in EF. destruct (lookup x u_out_table) eqn:EL; [|discriminate].
    unfold keys. apply in_map_iff. exists (x, o). split; [reflexivity|].
    apply lookup_In; exact EL. }
  unfold io_bind in H.
  destruct (conv_params (lower_sheet s) t) as [[p t1]|] eqn:E1; [|discriminate].
  destruct (add_velocity p t1) as [[p' t2]|] eqn:E2; [|discriminate].
  unfold io_lift in H.
  destruct (Q_calc (dict_from_data p')) as [q|] eqn:E3; [|discriminate].
  simpl in H. injection H as <- <-.
  exists p, t1, p', t2, q. auto.
Qed.

Lemma row_named_low s p r : row_named p s r -> In (p, lower_row r) (lower_sheet s).
Proof.
  intros (p' & Hin & <-). unfold lower_sheet. apply in_map_iff.
  exists (p', r). auto.
Qed.

(** What [add_velocity] does. *)
Lemma add_velocity_inv p t p' t' : add_velocity p t = Ok (p', t') ->
  (mem_key "v" p = true /\ p' = p /\ t' = t) \/
  (mem_key "v" p = false /\ exists e, p' = (p ++ [e])%list /\
     (fst e = "v" \/ fst e = "VR")).
Proof.
  unfold add_velocity. destruct (mem_key "v" p) eqn:Ev.
  - intros H; injection H as <- <-. left; auto.
  - intros H. right. split; [reflexivity|].
    destruct (mem_key "flrt" p).
    + unfold io_bind in H.
      repeat match type of H with
             | context[match ?x with _ => _ end] =>
                 lazymatch x with context[match _ with _ => _ end] => fail | _ => destruct x end
             end; try discriminate.
      all: injection H as <- <-; eexists; split; [reflexivity|]; simpl; auto.
    + unfold io_bind in H.
      repeat match type of H with
             | context[match ?x with _ => _ end] =>
                 lazymatch x with context[match _ with _ => _ end] => fail | _ => destruct x end
             end; try discriminate.
      all: injection H as <- <-; eexists; split; [reflexivity|]; simpl; auto.
Qed.

Lemma lookup_p' p t p' t' k x : add_velocity p t = Ok (p', t') ->
  lookup k p = Some x -> lookup k p' = Some x.
Proof.
  intros H Hk. destruct (add_velocity_inv _ _ _ _ H) as [(_ & -> & _)|(_ & e & -> & _)];
    [exact Hk|]. rewrite lookup_app, Hk. reflexivity.
Qed.

Lemma lookup_p'_old p t p' t' k : add_velocity p t = Ok (p', t') ->
  k <> "v" -> k <> "VR" -> lookup k p' = lookup k p.
Proof.
  intros H H1 H2. destruct (add_velocity_inv _ _ _ _ H) as [(_ & -> & _)|(_ & e & -> & He)];
    [reflexivity|]. rewrite lookup_app. destruct (lookup k p); [reflexivity|].
  destruct e as [ek ev]. simpl in *.
  destruct (String.eqb_spec k ek) as [->|]; [|reflexivity].
  destruct He; congruence.
Qed.

Lemma keys_p' p t p' t' : add_velocity p t = Ok (p', t') ->
  incl (keys p) (keys u_out_table) -> incl (keys p') labels.
Proof.
  intros H Hi. assert (HU : incl (keys u_out_table) labels).
  { intros x Hx. unfold labels. right; right; exact Hx. }
  destruct (add_velocity_inv _ _ _ _ H) as [(_ & -> & _)|(_ & e & -> & He)].
  - intros x Hx. apply HU, Hi, Hx.
  - unfold keys. rewrite map_app. intros x Hx. apply in_app_or in Hx.
    destruct Hx as [Hx|[<-|[]]]; [apply HU, Hi, Hx|].
    destruct He as [-> | ->]; apply mem_str_In; vm_compute; reflexivity.
Qed.

Section Converted.
  Variables (s : sheet) (t : list string) (out : csheet) (t' : list string).
  Hypothesis Hok : conv_params_data s t = Ok (out, t').

  (** Every dimensioned row is multiplied by its conversion factor. *)
  Lemma converted_row p k x u :
    row_named p s (quantity x u) -> lookup p kind_of = Some k -> k <> Scalar ->
    In (lower u) (units_of_kind k) ->
    exists uo f sp, lookup p u_out_table = Some (Some uo) /\
      converter_of_kind k (lower u) uo [] = Ok (f, sp, uo, []) /\
      has_value out (rename p) (x * f).
  Proof using Hok.
    intros Hrow Hk Hns Hu.
    destruct (conv_params_data_inv _ _ _ _ Hok) as
      (ND & Hincl & p0 & t1 & p' & t2 & q & E1 & E2 & _ & E3 & ->).
    assert (Hin := row_named_low _ _ _ Hrow).
    destruct (conv_params_row _ _ _ _ _ _ E1 ND Hin) as (ta & tb & r' & ER & EL).
    unfold lower_row, quantity in ER. simpl in ER.
    destruct (conv_row_dim p k x (lower u) ta Hk Hns Hu) as (uo & f & sp & Eo & EC & ER').
    rewrite ER' in ER. injection ER as <- _.
    destruct (conv_row_dim p k x (lower u) [] Hk Hns Hu) as (uo' & f' & sp' & Eo' & EC' & _).
    assert (uo' = uo) by congruence. subst uo'.
    destruct (kind_coherent k Hns) as (fac & _ & EE).
    destruct (table_dim p k Hk Hns) as (uo1 & fn1 & Eo1 & _ & Hin1 & _).
    assert (uo1 = uo) by congruence. subst uo1.
    destruct (EE _ uo ta (units_incl _ _ Hu) Hin1) as (sa & Esa).
    destruct (EE _ uo [] (units_incl _ _ Hu) Hin1) as (sb & Esb).
    rewrite Esa in EC. injection EC as <- _.
    exists uo, (fac (lower u) uo), sb. split; [exact Eo|]. split; [exact Esb|].
    exists (Some uo).
    assert (HK := conv_params_keys _ _ _ _ E1).
    rewrite lookup_renamed.
    - rewrite lookup_app, (lookup_p' _ _ _ _ _ _ E2 EL). reflexivity.
    - unfold keys. rewrite map_app. intros y Hy. apply in_app_or in Hy.
      destruct Hy as [Hy|[<-|[]]].
      + eapply keys_p'; [exact E2| |exact Hy]. rewrite HK. exact Hincl.
      + apply mem_str_In; vm_compute; reflexivity.
    - unfold labels. right; right.
      apply Hincl. unfold keys. apply in_map_iff. exists (p, lower_row (quantity x u)); auto.
  Qed.

  (** A scalar row is taken as it is. *)
  Lemma converted_scalar p x u :
    row_named p s {| p_value := PNum x; p_units := u |} ->
    lookup p kind_of = Some Scalar ->
    has_value out (rename p) x.
  Proof using Hok.
    intros Hrow Hk.
    destruct (conv_params_data_inv _ _ _ _ Hok) as
      (ND & Hincl & p0 & t1 & p' & t2 & q & E1 & E2 & _ & E3 & ->).
    assert (Hin := row_named_low _ _ _ Hrow).
    destruct (conv_params_row _ _ _ _ _ _ E1 ND Hin) as (ta & tb & r' & ER & EL).
    unfold lower_row in ER. simpl in ER. rewrite conv_row_scalar in ER by exact Hk.
    simpl in ER. injection ER as <- _.
    exists None.
    assert (HK := conv_params_keys _ _ _ _ E1).
    rewrite lookup_renamed.
    - rewrite lookup_app, (lookup_p' _ _ _ _ _ _ E2 EL). reflexivity.
    - unfold keys. rewrite map_app. intros y Hy. apply in_app_or in Hy.
      destruct Hy as [Hy|[<-|[]]].
      + eapply keys_p'; [exact E2| |exact Hy]. rewrite HK. exact Hincl.
      + apply mem_str_In; vm_compute; reflexivity.
    - unfold labels. right; right. apply Hincl. unfold keys. apply in_map_iff.
      eexists (p, _). split; [reflexivity|exact Hin].
  Qed.
End Converted.

(** ** Velocity *)

Lemma conv_fr_to_vel_cm d t :
  exists lab, conv_fr_to_vel "cm3/s" "cm/s" d "cm" t
  = Ok ((1000000 / 1000000 / (24 * 60 * 60 / (24 * 60 * 60)) * (100 / 100)
         / (PI * d ^ 2 / 4))%R, lab, "cm/s", t).
Proof. exists "cm3/s/cm3/s". reflexivity. Qed.

Lemma no_row_lookup s t p t' k : conv_params (lower_sheet s) t = Ok (p, t') ->
  (forall r, ~ row_named k s r) -> lookup k p = None.
Proof.
  intros H Hno. apply lookup_None_keys. rewrite (conv_params_keys _ _ _ _ H).
  unfold keys, lower_sheet. rewrite map_map. intros Hin. apply in_map_iff in Hin.
  destruct Hin as ([k0 r0] & E & Hin). simpl in E. apply (Hno r0). exists k0; auto.
Qed.

Lemma row_lookup s t p t' k r : conv_params (lower_sheet s) t = Ok (p, t') ->
  NoDup (keys (lower_sheet s)) -> row_named k s r ->
  exists t1 t2 r', conv_row k (lower_row r) t1 = Ok (r', t2) /\ lookup k p = Some r'.
Proof.
  intros H ND Hr. eapply conv_params_row; [exact H|exact ND|].
  apply row_named_low; exact Hr.
Qed.

Section Velocity.
  Variables (s : sheet) (t : list string) (out : csheet) (t' : list string).
  Hypothesis Hok : conv_params_data s t = Ok (out, t').

  Lemma out_lookup p0 t1 p' t2 q k :
    conv_params (lower_sheet s) t = Ok (p0, t1) -> add_velocity p0 t1 = Ok (p', t2) ->
    out = map (fun kr => (rename (fst kr), snd kr)) (p' ++ [("Q", (q, Some "meq/L"))])%list ->
    incl (keys (lower_sheet s)) (keys u_out_table) -> In k labels ->
    lookup (rename k) out = lookup k (p' ++ [("Q", (q, Some "meq/L"))])%list.
  Proof.
    intros E1 E2 -> Hincl Hk. rewrite lookup_renamed; [reflexivity| |exact Hk].
    unfold keys. rewrite map_app. intros y Hy. apply in_app_or in Hy.
    destruct Hy as [Hy|[<-|[]]].
    - eapply keys_p'; [exact E2| |exact Hy].
      rewrite (conv_params_keys _ _ _ _ E1). exact Hincl.
    - apply mem_str_In; vm_compute; reflexivity.
  Qed.

  Lemma velocity_from_flow F uF D uD :
    (forall r, ~ row_named "v" s r) ->
    row_named "flrt" s (quantity F uF) -> In (lower uF) (units_of_kind FlowRate) ->
    row_named "diam" s (quantity D uD) -> In (lower uD) (units_of_kind Length) ->
    exists f sf d sd,
      conv_vol_per_time (lower uF) "cm3/s" [] = Ok (f, sf, "cm3/s", []) /\
      conv_length (lower uD) "cm" [] = Ok (d, sd, "cm", []) /\
      has_value out "v" (F * f / (PI * (D * d) ^ 2 / 4)).
  Proof using Hok.
    intros Hnov HF HuF HD HuD.
    destruct (conv_params_data_inv _ _ _ _ Hok) as
      (ND & Hincl & p0 & t1 & p' & t2 & q & E1 & E2 & Et & E3 & Eout).
    assert (Hv := no_row_lookup _ _ _ _ _ E1 Hnov).
    destruct (row_lookup _ _ _ _ _ _ E1 ND HF) as (a1 & a2 & rF & ERF & ELF).
    destruct (row_lookup _ _ _ _ _ _ E1 ND HD) as (b1 & b2 & rD & ERD & ELD).
    unfold lower_row, quantity in ERF, ERD. simpl in ERF, ERD.
    assert (KF : lookup "flrt" kind_of = Some FlowRate) by reflexivity.
    assert (KD : lookup "diam" kind_of = Some Length) by reflexivity.
    assert (NF : FlowRate <> Scalar) by discriminate.
    assert (NL : Length <> Scalar) by discriminate.
    destruct (conv_row_dim "flrt" FlowRate F (lower uF) a1 KF NF HuF)
      as (uo & f & sf & Eo & ECF & ERF').
    rewrite ERF' in ERF. injection ERF as <- _.
    destruct (conv_row_dim "diam" Length D (lower uD) b1 KD NL HuD)
      as (uo' & d & sd & Eo' & ECD & ERD').
    rewrite ERD' in ERD. injection ERD as <- _.
    injection Eo as <-. injection Eo' as <-.
    destruct (kind_coherent FlowRate NF) as (facF & _ & EEF).
    destruct (kind_coherent Length NL) as (facD & _ & EED).
    assert (IF : In "cm3/s" (full_units FlowRate))
      by (apply mem_str_In; vm_compute; reflexivity).
    assert (ID : In "cm" (full_units Length))
      by (apply mem_str_In; vm_compute; reflexivity).
    destruct (EEF _ _ a1 (units_incl _ _ HuF) IF) as (x1 & X1).
    destruct (EEF _ _ [] (units_incl _ _ HuF) IF) as (x2 & X2).
    destruct (EED _ _ b1 (units_incl _ _ HuD) ID) as (x3 & X3).
    destruct (EED _ _ [] (units_incl _ _ HuD) ID) as (x4 & X4).
    rewrite X1 in ECF. injection ECF as <- _.
    rewrite X3 in ECD. injection ECD as <- _.
    exists (facF (lower uF) "cm3/s"), x2, (facD (lower uD) "cm"), x4.
    split; [exact X2|]. split; [exact X4|].
    set (FF := (F * facF (lower uF) "cm3/s")%R) in *.
    set (DD := (D * facD (lower uD) "cm")%R) in *.
    unfold add_velocity in E2. unfold mem_key in E2. rewrite Hv, ELF in E2.
    unfold io_bind, io_lift, units_of, value_of in E2. rewrite ELF, ELD in E2.
    cbn [option_map of_option bind fst snd io_opt io_ret] in E2.
    destruct (conv_fr_to_vel_cm DD t1) as (lab & Ev).
    cbv beta iota delta [io_ret] in E2. rewrite Ev in E2.
    cbv beta iota in E2. injection E2 as E2 _.
    exists (Some "cm/s").
    change "v" with (rename "v") at 1.
    rewrite Eout, lookup_renamed.
    - rewrite <- E2, !lookup_app, Hv. simpl. do 2 f_equal. unfold Rdiv. 
      rewrite (Rinv_r 1000000), (Rinv_r (24*60*60)), (Rinv_r 100), Rinv_1 by lra.
      ring.
    - rewrite <- E2. unfold keys. rewrite !map_app. intros y Hy.
      apply in_app_or in Hy. destruct Hy as [Hy|[<-|[]]];
        [apply in_app_or in Hy; destruct Hy as [Hy|[<-|[]]]|].
      + right; right. apply Hincl. rewrite <- (conv_params_keys _ _ _ _ E1). exact Hy.
      + apply mem_str_In; vm_compute; reflexivity.
      + apply mem_str_In; vm_compute; reflexivity.
    - apply mem_str_In; vm_compute; reflexivity.
  Qed.
End Velocity.

(** ** Capacity *)

Lemma lookup_dict k (p : csheet) : lookup k (dict_from_data p) = option_map fst (lookup k p).
Proof.
  induction p as [|[k' [x u]] p IH]; simpl; [reflexivity|].
  destruct (String.eqb k k'); auto.
Qed.

Section Capacity.
  Variables (s : sheet) (t : list string) (out : csheet) (t' : list string).
  Hypothesis Hok : conv_params_data s t = Ok (out, t').

  Lemma out_Q p0 t1 p' t2 q :
    conv_params (lower_sheet s) t = Ok (p0, t1) -> add_velocity p0 t1 = Ok (p', t2) ->
    out = map (fun kr => (rename (fst kr), snd kr)) (p' ++ [("Q", (q, Some "meq/L"))])%list ->
    incl (keys (lower_sheet s)) (keys u_out_table) -> has_value out "Q" q.
  Proof.
    intros E1 E2 Eo Hincl. exists (Some "meq/L").
    change "Q" with (rename "Q") at 1.
    rewrite (out_lookup s t out t' Hok p0 t1 p' t2 q "Q" E1 E2 Eo Hincl);
      [|apply mem_str_In; vm_compute; reflexivity].
    rewrite lookup_app.
    assert (HN : lookup "Q" p' = None).
    { rewrite (lookup_p'_old _ _ _ _ "Q" E2) by discriminate.
      apply lookup_None_keys. rewrite (conv_params_keys _ _ _ _ E1). intros Hin.
      apply Hincl in Hin. apply mem_str_In in Hin. vm_compute in Hin. discriminate. }
    rewrite HN. reflexivity.
  Qed.

  Lemma dim_value k kd x u p0 t1 p' t2 :
    conv_params (lower_sheet s) t = Ok (p0, t1) -> add_velocity p0 t1 = Ok (p', t2) ->
    NoDup (keys (lower_sheet s)) ->
    row_named k s (quantity x u) -> lookup k kind_of = Some kd -> kd <> Scalar ->
    In (lower u) (units_of_kind kd) ->
    exists uo f sp, lookup k u_out_table = Some (Some uo) /\
      converter_of_kind kd (lower u) uo [] = Ok (f, sp, uo, []) /\
      lookup k (dict_from_data p') = Some (x * f)%R.
  Proof.
    intros E1 E2 ND HR HK HN HU.
    destruct (row_lookup _ _ _ _ _ _ E1 ND HR) as (a1 & a2 & r & ER & EL).
    unfold lower_row, quantity in ER. simpl in ER.
    destruct (conv_row_dim k kd x (lower u) a1 HK HN HU) as (uo & f & sp & Eo & EC & ER').
    rewrite ER' in ER. injection ER as <- _.
    destruct (table_dim k kd HK HN) as (uo1 & fn1 & Eo1 & _ & Hin1 & _).
    assert (uo1 = uo) by congruence. subst uo1.
    destruct (kind_coherent kd HN) as (fac & _ & EE).
    destruct (EE _ _ a1 (units_incl _ _ HU) Hin1) as (x1 & X1).
    destruct (EE _ _ [] (units_incl _ _ HU) Hin1) as (x2 & X2).
    rewrite X1 in EC. injection EC as <- _.
    exists uo, (fac (lower u) uo), x2. split; [exact Eo|]. split; [exact X2|].
    rewrite lookup_dict, (lookup_p' _ _ _ _ _ _ E2 EL). reflexivity.
  Qed.

  Lemma scalar_value k x u p0 t1 p' t2 :
    conv_params (lower_sheet s) t = Ok (p0, t1) -> add_velocity p0 t1 = Ok (p', t2) ->
    NoDup (keys (lower_sheet s)) ->
    row_named k s {| p_value := PNum x; p_units := u |} ->
    lookup k kind_of = Some Scalar ->
    lookup k (dict_from_data p') = Some x.
  Proof.
    intros E1 E2 ND HR HK.
    destruct (row_lookup _ _ _ _ _ _ E1 ND HR) as (a1 & a2 & r & ER & EL).
    rewrite conv_row_scalar in ER by exact HK. simpl in ER. injection ER as <- _.
    rewrite lookup_dict, (lookup_p' _ _ _ _ _ _ E2 EL). reflexivity.
  Qed.

  Lemma absent_value k p0 t1 p' t2 :
    conv_params (lower_sheet s) t = Ok (p0, t1) -> add_velocity p0 t1 = Ok (p', t2) ->
    k <> "v" -> k <> "VR" -> (forall r, ~ row_named k s r) ->
    lookup k (dict_from_data p') = None.
  Proof.
    intros E1 E2 H1 H2 Hno. rewrite lookup_dict, (lookup_p'_old _ _ _ _ _ E2 H1 H2),
      (no_row_lookup _ _ _ _ _ E1 Hno). reflexivity.
  Qed.

  Lemma capacity_from_mass qm um rho ur :
    row_named "qm" s (quantity qm um) -> In (lower um) (units_of_kind CapacityMass) ->
    row_named "rhop" s (quantity rho ur) -> In (lower ur) (units_of_kind Density) ->
    exists f sf g sg,
      conv_capacity_mass 1 1 (lower um) "meq/kg" [] = Ok (f, sf, "meq/kg", []) /\
      conv_dens (lower ur) "g/ml" [] = Ok (g, sg, "g/ml", []) /\
      has_value out "Q" (qm * f * (rho * g)).
  Proof using Hok.
    intros H1 U1 H2 U2.
    destruct (conv_params_data_inv _ _ _ _ Hok) as
      (ND & Hincl & p0 & t1 & p' & t2 & q & E1 & E2 & Et & E3 & Eout).
    destruct (dim_value "qm" CapacityMass qm um _ _ _ _ E1 E2 ND H1 eq_refl
                ltac:(discriminate) U1) as (uo & f & sf & Eo & EC & V1).
    destruct (dim_value "rhop" Density rho ur _ _ _ _ E1 E2 ND H2 eq_refl
                ltac:(discriminate) U2) as (uo' & g & sg & Eo' & EC' & V2).
    injection Eo as <-. injection Eo' as <-.
    exists f, sf, g, sg. split; [exact EC|]. split; [exact EC'|].
    unfold Q_calc in E3. rewrite V1, V2 in E3.
    assert (Eq : q = (qm * f * (rho * g))%R).
    { destruct (lookup "qf" (dict_from_data p')), (lookup "ebed" (dict_from_data p'));
        injection E3 as <-; reflexivity. }
    subst q. eapply out_Q; eassumption.
  Qed.

  Lemma capacity_from_filter qf uf e ue :
    (forall r, ~ row_named "qm" s r) \/ (forall r, ~ row_named "rhop" s r) ->
    row_named "qf" s (quantity qf uf) -> In (lower uf) (units_of_kind CapacityVolume) ->
    row_named "ebed" s {| p_value := PNum e; p_units := ue |} ->
    exists f sf,
      conv_capacity_vol 1 1 (lower uf) "meq/L" [] = Ok (f, sf, "meq/L", []) /\
      has_value out "Q" (qf * f / (1 - e)).
  Proof using Hok.
    intros H0 H1 U1 H2.
    destruct (conv_params_data_inv _ _ _ _ Hok) as
      (ND & Hincl & p0 & t1 & p' & t2 & q & E1 & E2 & Et & E3 & Eout).
    destruct (dim_value "qf" CapacityVolume qf uf _ _ _ _ E1 E2 ND H1 eq_refl
                ltac:(discriminate) U1) as (uo & f & sf & Eo & EC & V1).
    assert (V2 := scalar_value "ebed" e ue _ _ _ _ E1 E2 ND H2 eq_refl).
    injection Eo as <-.
    exists f, sf. split; [exact EC|].
    unfold Q_calc in E3. rewrite V1, V2 in E3.
    assert (Eq : q = (qf * f / (1 - e))%R).
    { destruct H0 as [H0|H0].
      - rewrite (absent_value "qm" _ _ _ _ E1 E2 ltac:(discriminate) ltac:(discriminate) H0) in E3.
        injection E3 as <-; reflexivity.
      - rewrite (absent_value "rhop" _ _ _ _ E1 E2 ltac:(discriminate) ltac:(discriminate) H0) in E3.
        destruct (lookup "qm" (dict_from_data p')); injection E3 as <-; reflexivity. }
    subst q. eapply out_Q; eassumption.
  Qed.

  Lemma capacity_missing :
    (forall r, ~ row_named "qm" s r) \/ (forall r, ~ row_named "rhop" s r) ->
    (forall r, ~ row_named "qf" s r) \/ (forall r, ~ row_named "ebed" s r) ->
    False.
  Proof using Hok.
    intros H0 H1.
    destruct (conv_params_data_inv _ _ _ _ Hok) as
      (ND & Hincl & p0 & t1 & p' & t2 & q & E1 & E2 & Et & E3 & Eout).
    assert (A : forall k, k <> "v" -> k <> "VR" -> (forall r, ~ row_named k s r) ->
              lookup k (dict_from_data p') = None)
      by (intros; eapply absent_value; eassumption).
    assert (A1 : lookup "qm" (dict_from_data p') = None \/ lookup "rhop" (dict_from_data p') = None)
      by (destruct H0 as [H|H]; [left|right]; apply A; try discriminate; exact H).
    assert (A2 : lookup "qf" (dict_from_data p') = None \/ lookup "ebed" (dict_from_data p') = None)
      by (destruct H1 as [H|H]; [left|right]; apply A; try discriminate; exact H).
    unfold Q_calc in E3.
    destruct (lookup "qm" (dict_from_data p')), (lookup "rhop" (dict_from_data p')),
      (lookup "qf" (dict_from_data p')), (lookup "ebed" (dict_from_data p'));
      try discriminate; destruct A1, A2; discriminate.
  Qed.
End Capacity.

(** A capacity per resin volume, through [load_params]. *)
Lemma pre_Q_rows s x u e ue s' :
  NoDup (keys s) ->
  In ("Q", quantity x u) s ->
  In ("EBED", {| p_value := PNum e; p_units := ue |}) s ->
  pre_Q s = Ok s' ->
  In ("Qf", quantity (x * (1 - e)) u) s' /\
  In ("EBED", {| p_value := PNum e; p_units := ue |}) s' /\
  (forall k r, k <> "Q" -> k <> "Qf" -> In (k, r) s' -> In (k, r) s).
Proof.
  intros ND HQ HE H. unfold pre_Q in H.
  rewrite (In_lookup _ _ _ ND HQ), (In_lookup _ _ _ ND HE) in H. simpl in H.
  injection H as <-. repeat split.
  - apply in_map_iff. exists ("Q", quantity x u). split; [reflexivity|exact HQ].
  - apply in_map_iff. exists ("EBED", {| p_value := PNum e; p_units := ue |}).
    split; [reflexivity|exact HE].
  - intros k r H1 H2 Hin. apply in_map_iff in Hin.
    destruct Hin as ([k0 r0] & E & Hin). simpl in E.
    destruct (String.eqb_spec k0 "Q") as [->|Hn].
    + injection E as <- _. congruence.
    + injection E as <- <-. exact Hin.
Qed.

Lemma lower_Q_neq k : lower k = "qm" \/ lower k = "rhop" -> k <> "Q" /\ k <> "Qf".
Proof. intros [H|H]; split; intros ->; discriminate. Qed.

Lemma capacity_from_resin s t out t' x u e ue :
  load_params s t = Ok (out, t') -> NoDup (keys s) ->
  In ("Q", quantity x u) s -> In (lower u) (units_of_kind CapacityVolume) ->
  In ("EBED", {| p_value := PNum e; p_units := ue |}) s -> (e <> 1)%R ->
  (forall r, ~ row_named "qm" s r) \/ (forall r, ~ row_named "rhop" s r) ->
  exists f sf,
    conv_capacity_vol 1 1 (lower u) "meq/L" [] = Ok (f, sf, "meq/L", []) /\
    has_value out "Q" (x * f).
Proof.
  intros H ND HQ HU HE He Hno. unfold load_params, io_bind, io_lift in H.
  destruct (pre_Q s) as [s'|] eqn:EP; [|discriminate]. simpl in H.
  destruct (pre_Q_rows _ _ _ _ _ _ ND HQ HE EP) as (R1 & R2 & R3).
  assert (Hno' : (forall r, ~ row_named "qm" s' r) \/ (forall r, ~ row_named "rhop" s' r)).
  { destruct Hno as [Hno|Hno]; [left|right]; intros r (k & Hin & Hk); apply (Hno r);
      exists k; (split; [|exact Hk]);
      (destruct (lower_Q_neq k) as (N1 & N2); [rewrite Hk; auto|]);
      apply R3; auto. }
  destruct (capacity_from_filter s' t out t' H (x * (1 - e)) u e ue Hno') as (f & sf & E1 & E2).
  - exists "Qf". split; [exact R1|reflexivity].
  - exact HU.
  - exists "EBED". split; [exact R2|reflexivity].
  - exists f, sf. split; [exact E1|].
    replace (x * f)%R with (x * (1 - e) * f / (1 - e))%R; [exact E2|].
    field. lra.
Qed.

Lemma velocity_given s t out t' : conv_params_data s t = Ok (out, t') ->
  forall x u, row_named "v" s (quantity x u) -> In (lower u) (units_of_kind Velocity) ->
  exists f sp, conv_vel (lower u) "cm/s" [] = Ok (f, sp, "cm/s", []) /\
    has_value out "v" (x * f).
Proof.
  intros H x u HR HU.
  destruct (converted_row s t out t' H "v" Velocity x u HR eq_refl ltac:(discriminate) HU)
    as (uo & f & sp & Eo & EC & HV).
  injection Eo as <-. exists f, sp. split; [exact EC|exact HV].
Qed.

Lemma table_solver_unit p k uo : lookup p kind_of = Some k -> k <> Scalar ->
  lookup p u_out_table = Some (Some uo) -> uo = solver_unit k.
Proof.
  intros H Hk. apply lookup_In in H. unfold kind_of in H. simpl in H.
  repeat (destruct H as [H|H];
    [injection H as <- <-; first [congruence|intros E; injection E as <-; reflexivity]|]).
  destruct H.
Qed.

Lemma solver_name_rename p k : lookup p kind_of = Some k -> solver_name p = rename p.
Proof.
  intros H. apply lookup_In in H. unfold kind_of in H. simpl in H.
  repeat (destruct H as [H|H]; [injection H as <- _; reflexivity|]). destruct H.
Qed.

Lemma converted_row_spec s t out t' : conv_params_data s t = Ok (out, t') ->
  forall p k x u, row_named p s (quantity x u) ->
    lookup p kind_of = Some k -> k <> Scalar -> In (lower u) (units_of_kind k) ->
  exists f sp,
    converter_of_kind k (lower u) (solver_unit k) [] = Ok (f, sp, solver_unit k, []) /\
    has_value out (solver_name p) (x * f).
Proof.
  intros H p k x u HR HK HN HU.
  destruct (converted_row s t out t' H p k x u HR HK HN HU) as (uo & f & sp & Eo & EC & HV).
  rewrite (table_solver_unit p k uo HK HN Eo) in EC. exists f, sp.
  rewrite (solver_name_rename p k HK). auto.
Qed.

Lemma converted_scalar_spec s t out t' : conv_params_data s t = Ok (out, t') ->
  forall p x u, row_named p s {| p_value := PNum x; p_units := u |} ->
    lookup p kind_of = Some Scalar -> has_value out (solver_name p) x.
Proof.
  intros H p x u HR HK. rewrite (solver_name_rename p _ HK).
  eapply converted_scalar; eassumption.
Qed.

(** Resin volume of a batch reactor. *)
Lemma resin_volume s t out t' : conv_params_data s t = Ok (out, t') ->
  forall w uw m um rho ur,
  (forall r, ~ row_named "v" s r) -> (forall r, ~ row_named "flrt" s r) ->
  row_named "w" s {| p_value := PNum w; p_units := uw |} ->
  row_named "m" s (quantity m um) -> In (lower um) (units_of_kind Mass) ->
  row_named "rhop" s (quantity rho ur) -> In (lower ur) (units_of_kind Density) ->
  exists f sf g sg,
    conv_weight (lower um) "g" [] = Ok (f, sf, "g", []) /\
    conv_dens (lower ur) "g/ml" [] = Ok (g, sg, "g/ml", []) /\
    has_value out "VR" ((1 - w) * (m * f) / (rho * g) / 1000).
Proof.
  intros Hok w uw m um rho ur Hv Hf Hw Hm Um Hr Ur.
  destruct (conv_params_data_inv _ _ _ _ Hok) as
    (ND & Hincl & p0 & t1 & p' & t2 & q & E1 & E2 & Et & E3 & Eout).
  destruct (dim_value s t "m" Mass m um _ _ _ _ E1 E2 ND Hm eq_refl
              ltac:(discriminate) Um) as (uo & f & sf & Eo & EC & V1).
  destruct (dim_value s t "rhop" Density rho ur _ _ _ _ E1 E2 ND Hr eq_refl
              ltac:(discriminate) Ur) as (uo' & g & sg & Eo' & EC' & V2).
  assert (V3 := scalar_value s t "w" w uw _ _ _ _ E1 E2 ND Hw eq_refl).
  injection Eo as <-. injection Eo' as <-.
  exists f, sf, g, sg. split; [exact EC|]. split; [exact EC'|].
  assert (Nv := no_row_lookup _ _ _ _ _ E1 Hv). assert (Nf := no_row_lookup _ _ _ _ _ E1 Hf).
  rewrite lookup_dict, (lookup_p'_old _ _ _ _ _ E2) in V1 by discriminate.
  rewrite lookup_dict, (lookup_p'_old _ _ _ _ _ E2) in V2 by discriminate.
  rewrite lookup_dict, (lookup_p'_old _ _ _ _ _ E2) in V3 by discriminate.
  unfold add_velocity, mem_key in E2. rewrite Nv, Nf in E2.
  unfold io_bind, io_lift, value_of in E2. rewrite V1, V2, V3 in E2.
  cbn [of_option bind io_ret] in E2. unfold io_ret in E2.
  assert (E2' := E2). injection E2' as <- <-.
  exists (Some "L"). change "VR" with (rename "VR") at 1.
  assert (HL : lookup "VR" p0 = None).
  { apply lookup_None_keys. rewrite (conv_params_keys _ _ _ _ E1). intros Hin.
    apply Hincl in Hin. apply mem_str_In in Hin. vm_compute in Hin. discriminate. }
  rewrite Eout, lookup_renamed.
  - rewrite !lookup_app, HL. reflexivity.
  - unfold keys. rewrite !map_app. intros y Hy. apply in_app_or in Hy.
    destruct Hy as [Hy|[<-|[]]]; [apply in_app_or in Hy; destruct Hy as [Hy|[<-|[]]]|].
    + right; right. apply Hincl. rewrite <- (conv_params_keys _ _ _ _ E1). exact Hy.
    + apply mem_str_In; vm_compute; reflexivity.
    + apply mem_str_In; vm_compute; reflexivity.
  - apply mem_str_In; vm_compute; reflexivity.
Qed.
