(** Property theorems: match_catalogs (C113). *)
From Verif Require Import Base Num M_Match S_Match.
From Verif Require L_Match E_Match.
Local Open Scope list_scope.
Local Open Scope R_scope.

(** C113: every source gets the closest source on the sky *)
Theorem C113_nearest : forall query ra1 dec1 ra2 dec2 u, finds_nearest query ->
  length ra1 = length dec1 -> length ra2 = length dec2 -> ra2 <> [] -> polar dec1 u -> polar dec2 u ->
  exists idx d2 d3, match_catalogs query ra1 dec1 ra2 dec2 u = Ok (idx, d2, d3) /\
    length idx = length ra1 /\ length d2 = length ra1 /\ length d3 = length ra1 /\
    forall k r d, nth_error ra1 k = Some r -> nth_error dec1 k = Some d ->
      exists m s, nth_error idx k = Some m /\ nth_error d2 k = Some s /\ nth_error d3 k = Some (2 * sin (s / 2)) /\
        exists r' d', nth_error ra2 m = Some r' /\ nth_error dec2 m = Some d' /\ apart (r * u) (d * u) (r' * u) (d' * u) s /\
        forall m' r'' d'' s'', nth_error ra2 m' = Some r'' -> nth_error dec2 m' = Some d'' ->
          apart (r * u) (d * u) (r'' * u) (d'' * u) s'' -> s <= s''.
Proof. exact L_Match.match_nearest. Qed.
Print Assumptions C113_nearest.

Theorem C113_itself : forall query ra dec u, finds_nearest query -> length ra = length dec -> ra <> [] -> polar dec u ->
  (forall k m r d r' d', k <> m -> nth_error ra k = Some r -> nth_error dec k = Some d -> nth_error ra m = Some r' -> nth_error dec m = Some d' ->
     ~ apart (r * u) (d * u) (r' * u) (d' * u) 0) ->
  match_catalogs query ra dec ra dec u = Ok (seq 0 (length ra), repeat 0 (length ra), repeat 0 (length ra)).
Proof. exact L_Match.match_itself. Qed.
Print Assumptions C113_itself.

Theorem C113_unit : forall query ra1 dec1 ra2 dec2 u v, v <> 0 ->
  let c := map (fun a => a * u / v) in
  match_catalogs query (c ra1) (c dec1) (c ra2) (c dec2) v = match_catalogs query ra1 dec1 ra2 dec2 u.
Proof. exact L_Match.match_unit. Qed.
Print Assumptions C113_unit.

Theorem C113_turns : forall query ra1 ra1' dec1 ra2 ra2' dec2 u, same_turn u ra1 ra1' -> same_turn u ra2 ra2' ->
  match_catalogs query ra1 dec1 ra2 dec2 u = match_catalogs query ra1' dec1 ra2' dec2 u.
Proof. exact L_Match.match_turn. Qed.
Print Assumptions C113_turns.

Theorem C113_errors : forall query ra1 dec1 ra2 dec2 u,
  let bad ra dec := (exists d, In d dec /\ ~ (-90 <= d * u <= 90)) \/
                    (length ra <> length dec /\ length ra <> 1%nat /\ length dec <> 1%nat) in
  bad ra1 dec1 \/ bad ra2 dec2 \/ (ra2 = [] /\ dec2 = []) ->
  match_catalogs query ra1 dec1 ra2 dec2 u = Err ValueError.
Proof. exact L_Match.match_errors. Qed.
Print Assumptions C113_errors.

Example C113_example : finds_nearest E_Match.nearest_index /\
  match_catalogs E_Match.nearest_index [0; 90] [0; 0] [450; 0] [0; 0] 1 = Ok ([1; 0]%nat, [0; 0], [0; 0]).
Proof. exact (conj E_Match.nearest_index_ok E_Match.two_sources). Qed.
Example C113_itself_example : (forall k m r d r' d', k <> m -> nth_error [0; 90] k = Some r -> nth_error [0; 0] k = Some d ->
   nth_error [0; 90] m = Some r' -> nth_error [0; 0] m = Some d' -> ~ apart (r * 1) (d * 1) (r' * 1) (d' * 1) 0) /\
  match_catalogs E_Match.nearest_index [0; 90] [0; 0] [0; 90] [0; 0] 1 = Ok ([0; 1]%nat, [0; 0], [0; 0]).
Proof. exact E_Match.itself_ex. Qed.
Example C113_turns_example : same_turn 15 [1; 2] [25; -22].
Proof. exact E_Match.turn_ex. Qed.
