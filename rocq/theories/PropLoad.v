(** Property theorems C09-C11, C49: grouping of targets and loading. *)
From Verif Require Import Base Cost Utils Fractions FractionsSpec Load LoadSpec LoadProofs.
Open Scope Z_scope.

(** C09 *)
Theorem C09_group_values : forall values, Forall (fun v => 0 < v) values ->
  exists roots cost, group_values values = Ok (roots, cost) /\
    StronglySorted Z.lt (map gvalue roots) /\
    zsum (map gvalue roots) = zsum values /\
    Forall folded roots /\
    Permutation (flat_map gleaves roots) values /\
    total_divide_cost (flat_map ginner roots) cost.
Proof. exact group_values_spec. Qed.
Print Assumptions C09_group_values.

Example C09_witness :
  let leaf v := GNode v [] [] in
  group_values [2; 50; 2; 6; 10; 2; 5; 5; 6; 2; 2] =
  Ok ([GNode 12 [] [leaf 6; leaf 6];
       GNode 30 [] [GNode 10 [TDivide 5] [leaf 2; leaf 2; leaf 2; leaf 2; leaf 2];
                    GNode 10 [] [leaf 5; leaf 5]; leaf 10];
       leaf 50], 7).
Proof. vm_compute. reflexivity. Qed.

(** C10: [reduced] is the specification of what the request becomes. *)
Theorem C10_load_preserves_request : forall ss ts p,
  Forall (fun f => (0 < f)%Qc) ss -> Forall (fun f => (0 < f)%Qc) ts ->
  load_values ss ts = Ok (Some p) ->
  reduced ss ts (p_unit_flow_ratio p) (p_sources p) (p_target_integers p) /\
  Forall (fun v => 0 < v) (p_sources p) /\ Forall (fun v => 0 < v) (p_target_integers p) /\
  zsum (p_sources p) = zsum (p_target_integers p) /\
  (forall v, ~ (In v (p_sources p) /\ In v (p_target_integers p))).
Proof. exact load_reduced. Qed.
Print Assumptions C10_load_preserves_request.

Theorem C10_load_groups_targets : forall ss ts p,
  Forall (fun f => (0 < f)%Qc) ss -> Forall (fun f => (0 < f)%Qc) ts ->
  load_values ss ts = Ok (Some p) ->
  p_targets p = map gvalue (p_leaves p) /\ StronglySorted Z.lt (p_targets p) /\
  zsum (p_targets p) = zsum (p_sources p) /\ Forall folded (p_leaves p) /\
  Permutation (flat_map gleaves (p_leaves p)) (p_target_integers p) /\
  total_divide_cost (flat_map ginner (p_leaves p)) (p_size_offset p).
Proof. exact load_grouped. Qed.
Print Assumptions C10_load_groups_targets.

Theorem C10_load_is_parse_then_load : forall s p, load s = Ok (Some p) <->
  exists ss ts, parse_user_input s = Ok (Some (ss, ts)) /\ load_values ss ts = Ok (Some p).
Proof. exact load_parsed. Qed.
Print Assumptions C10_load_is_parse_then_load.

(** "1.5 10 to 4 4 1.5": the pair 1.5 cancels, a target 2 is generated, the two
    4 are grouped *)
Example C10_witness :
  match load [49; 46; 53; 32; 49; 48; 32; 116; 111; 32; 52; 32; 52; 32; 49; 46; 53] with
  | Ok (Some p) => p_sources p = [10] /\ p_target_integers p = [2; 4; 4] /\ p_targets p = [2; 8] /\
                   p_unit_flow_ratio p = 1
  | _ => False
  end.
Proof. vm_compute. auto. Qed.

(** C11.  Full statement: for non-empty lists of positive fractions load does not
    raise.  False: "3 to 1 2" raises. *)
Theorem C11_load_total_refuted : exists ss ts,
  Forall (fun f => (0 < f)%Qc) ss /\ Forall (fun f => (0 < f)%Qc) ts /\
  ss <> [] /\ ts <> [] /\ load_values ss ts = Err ValueError.
Proof. exact load_total_refuted. Qed.
Print Assumptions C11_load_total_refuted.

(** It raises exactly on the problems whose remaining flow is [too_small]. *)
Theorem C11_load_total_partial : forall ss ts,
  Forall (fun f => (0 < f)%Qc) ss -> Forall (fun f => (0 < f)%Qc) ts -> ss <> [] -> ts <> [] ->
  exists u S T, reduced ss ts u S T /\
    ((S = [] /\ load_values ss ts = Ok None) \/
     (S <> [] /\ too_small T /\ load_values ss ts = Err ValueError) \/
     (S <> [] /\ ~ too_small T /\ exists p, load_values ss ts = Ok (Some p))).
Proof. exact load_raises. Qed.
Print Assumptions C11_load_total_partial.

Example C11_witness : load [51; 32; 116; 111; 32; 49; 32; 50] = Err ValueError /\ too_small [1; 2].
Proof. split; [vm_compute; reflexivity|right; reflexivity]. Qed.

(** C49 *)
Theorem C49_problem_name_reloads : forall ss ts p,
  Forall (fun f => (0 < f)%Qc) ss -> Forall (fun f => (0 < f)%Qc) ts ->
  load_values ss ts = Ok (Some p) ->
  load (p_problem_str p) = Ok (Some p) /\
  load (replace_char big_solidus slash (p_problem_str p)) = Ok (Some p).
Proof. exact load_own_name. Qed.
Print Assumptions C49_problem_name_reloads.

Example C49_witness :
  match load [49; 46; 53; 32; 49; 48; 32; 116; 111; 32; 52; 32; 52; 32; 49; 46; 53] with
  | Ok (Some p) => (* "10 to 2 2x 4" *)
      p_problem_str p = [49; 48; 32; 116; 111; 32; 50; 32; 50; 120; 32; 52]
  | _ => False
  end.
Proof. vm_compute. auto. Qed.
