(** C56 - C58: the discrete example models. *)
From Coq Require Import List Arith ZArith Bool Reals.
From Verif Require Import ScanModel Ord FscModel FscSpec VitSpec VitModel MarkovModel MarkovSpec MarkovFm MarkovGe MarkovText MarkovText3 MarkovText4 MarkovMain MarkovEx.
Import ListNotations.
Local Open Scope R_scope.

(** C56: for every history of draws the scene is the product of the two walkers' masks *)
Theorem C56_scene :
  forall (u : nat -> nat -> R) (T nx : nat),
  exists track, fm_genData u T nx = Some (track, (nx / 2)%nat) /\
    ((0 < nx)%nat -> (nx / 2 < nx)%nat) /\ table nx T (fun e => 0 < e <= 1) track /\
    forall y k, (y < nx)%nat -> (k < T)%nat ->
      exists p q, walks nx (u 0%nat) (nx / 2) (S k) p /\ walks nx (u 1%nat) (nx / 2) (S k) q /\
        (p < nx)%nat /\ (q < nx)%nat /\ get2 track y k = Some (factor (dist p y) * factor (dist q y)).
Proof. exact C56_scene_lemma. Qed.
Print Assumptions C56_scene.

(** the control problem built from any track *)
Theorem C56_controller :
  forall (track : arr R), arr_ok track -> (1 <= shape1 track)%nat ->
  let nx := shape0 track in let T := shape1 track in
  exists P, fm_getFSC track = Some P /\ length (ff P) = T /\ ((1 <= nx)%nat -> valid nx 3 P) /\
    (forall k x u, (k < T)%nat -> (x < nx)%nat -> (u < 3)%nat ->
       exists f, nth_error (ff P) k = Some f /\ get2 f x u = Some (game_move nx x u) /\ (game_move nx x u < nx)%nat) /\
    (forall us x, controls 3 T us -> (x < nx)%nat ->
       run_cost (ff P) (fL P) (fLT P) x us = Some (game_cost nx (fun x k => nth k (nth x (adata track) []) 0) 0 x us)).
Proof. exact C56_controller_lemma. Qed.
Print Assumptions C56_controller.

Theorem C56_empty_track_raises :
  forall (track : arr R), shape1 track = 0%nat -> fm_getFSC track = None.
Proof. exact getFSC_none. Qed.
Print Assumptions C56_empty_track_raises.

(** generated games: the parallel and the sequential solver agree and the controls found cost least *)
Theorem C56_game_solved :
  forall (u : nat -> nat -> R) (T nx : nat), (1 <= nx)%nat -> (1 <= T)%nat -> INR T <= 10 ^ 19 ->
  exists track P us Vs xs cs, fm_genData u T nx = Some (track, (nx / 2)%nat) /\
    fm_getFSC (Arr nx T track) = Some P /\
    seqBackwardPass P = Some (us, Vs) /\ parBackwardPass (K := Rcost) (10 ^ 20) P = Some (us, Vs) /\
    seqForwardPass P (nx / 2) us = Some (cs, xs) /\ length xs = S T /\ Forall (fun x => (x < nx)%nat) xs /\
    controls 3 T cs /\
    forall cs', controls 3 T cs' ->
      game_cost nx (fun x k => nth k (nth x track []) 0) 0 (nx / 2) cs <=
      game_cost nx (fun x k => nth k (nth x track []) 0) 0 (nx / 2) cs'.
Proof. exact C56_solved_lemma. Qed.
Print Assumptions C56_game_solved.

Example C56_scene_example : exists track, fm_genData ex_draws 2 3 = Some (track, 1%nat) /\
  get2 track 0 0 = Some (1/10 * (5/10)) /\ get2 track 2 1 = Some (5/10 * (1/10)).
Proof. exact ex_scene. Qed.
Example C56_controller_example : arr_ok ex_track /\
  game_cost 2 (fun x k => nth k (nth x (adata ex_track) []) 0) 0 0 [2; 0]%nat = 8.
Proof. exact ex_game. Qed.

(** C57: tables of probabilities for all parameters *)
Theorem C57_stochastic :
  forall p0 p1 p2 q0 q1,
  probability p0 -> probability p1 -> probability p2 -> probability q0 -> probability q1 ->
  table 4 4 probability (ge_Pi p0 p1 p2) /\ Forall distribution (ge_Pi p0 p1 p2) /\
  table 4 2 probability (ge_Po q0 q1) /\ Forall distribution (ge_Po q0 q1) /\
  length ge_prior = 4%nat /\ distribution ge_prior.
Proof. exact C57_stochastic_lemma. Qed.
Print Assumptions C57_stochastic.

(** state 2b+s: the bit b and the channel state s move independently; the output is the bit, wrong with the
    error probability of the channel state *)
Theorem C57_structure :
  forall p0 p1 p2 q0 q1 b s b' s' y, (b < 2)%nat -> (s < 2)%nat -> (b' < 2)%nat -> (s' < 2)%nat -> (y < 2)%nat ->
  get2 (ge_Pi p0 p1 p2) (2 * b + s) (2 * b' + s') = Some (flip p0 p1 s s' * flip p2 p2 b b') /\
  get2 (ge_Po q0 q1) (2 * b + s) y = Some (let q := if (s =? 0)%nat then q0 else q1 in flip q q b y).
Proof. exact C57_structure_lemma. Qed.
Print Assumptions C57_structure.

Theorem C57_state_index :
  forall x, (x < 4)%nat <-> exists b s, (b < 2)%nat /\ (s < 2)%nat /\ x = (2 * b + s)%nat /\
    forall b' s', (b' < 2)%nat -> (s' < 2)%nat -> x = (2 * b' + s')%nat -> b' = b /\ s' = s.
Proof. exact C57_index_lemma. Qed.
Print Assumptions C57_state_index.

Theorem C57_bits :
  forall l : list (nat * nat), Forall (fun p => (fst p < 2)%nat /\ (snd p < 2)%nat) l ->
  get_b_list (map (fun p => Z.of_nat (2 * fst p + snd p)) l) = map (fun p => Z.of_nat (fst p)) l.
Proof. exact C57_bits_lemma. Qed.
Print Assumptions C57_bits.

(** random choice: outcome i exactly for the draws in an interval as long as the i-th probability *)
Theorem C57_choice :
  forall p u i, distribution p -> unit_draw u -> (choice p u = Some i <-> (i < length p)%nat /\ in_slot p i u).
Proof. exact choice_iff. Qed.
Print Assumptions C57_choice.

(** the generated states and observations: in range, produced by the draws, of positive probability *)
Theorem C57_generated_data :
  forall v (u : nat -> R * R) T, unit_draw v -> (forall k, unit_draw (fst (u k)) /\ unit_draw (snd (u k))) ->
  exists x xs ys, ge_genData v u T = Some (xs, ys) /\ length xs = T /\ length ys = T /\
    Forall (fun x => (x < 4)%nat) (x :: xs) /\ symbols 2 ys /\
    in_slot ge_prior x v /\ sampled gePi gePo x (map u (seq 0 T)) xs ys /\
    exists q, joint ge_prior gePi gePo (x :: xs) ys = Some q /\ 0 < q.
Proof. exact C57_data_lemma. Qed.
Print Assumptions C57_generated_data.

(** every generated observation sequence can be decoded *)
Theorem C57_decoding :
  forall v (u : nat -> R * R) T, unit_draw v -> (forall k, unit_draw (fst (u k)) /\ unit_draw (snd (u k))) -> (1 <= T)%nat ->
  exists xs ys est Vs, ge_genData v u T = Some (xs, ys) /\
    seqViterbi ge_prior gePi gePo ys = Some (est, Vs) /\ MAP 4 ge_prior gePi gePo ys est.
Proof. exact C57_decode_lemma. Qed.
Print Assumptions C57_decoding.

Example C57_values : probability (3/100) /\ probability (1/10) /\ probability (5/100) /\ probability (3/10).
Proof. exact ge_values. Qed.
Example C57_choice_example :
  distribution [1/4; 0; 3/4] /\ choice [1/4; 0; 3/4] (1/2) = Some 2%nat /\ choice [1/4; 1/4] (1/2) = None.
Proof. exact ex_choice. Qed.
Example C57_bits_example : get_b_list [0; 1; 2; 3; 7]%Z = [0; 0; 1; 1; 0]%Z.
Proof. exact ex_bits. Qed.
Example C57_draws : unit_draw (1/2) /\
  forall k : nat, unit_draw (fst ((fun _ => (1/3, 1/4)) k)) /\ unit_draw (snd ((fun _ => (1/3, 1/4)) k)).
Proof. exact ex_draw_pair. Qed.

(** C58: the constructor never fails; contexts are all strings of the given length, in lexicographic order,
    and for distinct characters the dictionaries invert the enumerations *)
Theorem C58_contexts :
  forall (al : list nat) (e : R) (o : nat), exists M, text_init al e o = Some M /\ chars M = al /\ errp M = e /\ order M = o /\
  length (cond_chars M) = (length al ^ o)%nat /\
  (forall i, (i < length al ^ o)%nat -> nth_error (cond_chars M) i = Some (ith_string al o i)) /\
  (forall s, (exists i, nth_error (cond_chars M) i = Some s) <-> length s = o /\ Forall (fun c => In c al) s) /\
  (NoDup al -> (forall s i, cond_index M s = Some i <-> nth_error (cond_chars M) i = Some s) /\
               (forall c i, char_index M c = Some i <-> nth_error al i = Some c)).
Proof. exact C58_contexts_lemma. Qed.
Print Assumptions C58_contexts.

Theorem C58_output_tables :
  forall al e o M, text_init al e o = Some M -> probability e -> let n := length al in
  table n n probability (get1stOrderPo M) /\ Forall distribution (get1stOrderPo M) /\
  (forall i j, (i < n)%nat -> (j < n)%nat -> get2 (get1stOrderPo M) i j = Some ((if (i =? j)%nat then 1 - e else 0) + e / INR n)) /\
  ((1 <= o)%nat ->
   table (n ^ o) n probability (getNthOrderPo M) /\ Forall distribution (getNthOrderPo M) /\
   forall i, (i < n ^ o)%nat -> nth_error (getNthOrderPo M) i = nth_error (get1stOrderPo M) (i mod n)).
Proof. exact outputs. Qed.
Print Assumptions C58_output_tables.

Theorem C58_first_order_transitions :
  forall al e o M, text_init al e o = Some M -> NoDup al -> forall text, over al text -> (0 < length text)%nat ->
  exists P, get1stOrderPi M text = Some P /\ rows_proportional (length al) (length al) (pair_weight al text) P.
Proof. exact Pi1. Qed.
Print Assumptions C58_first_order_transitions.

Theorem C58_first_order_prior :
  forall al e o M, text_init al e o = Some M -> NoDup al -> forall text, over al text -> (0 < length al)%nat ->
  exists p, get1stOrderPrior M text = Some p /\
    proportional (length al) (fun i => 1 + INR (occurrences [nth i al 0%nat] text)) p.
Proof. exact prior1. Qed.
Print Assumptions C58_first_order_prior.

(** transitions between contexts that do not overlap get at most 1e-12/n *)
Theorem C58_transitions :
  forall al e o M, text_init al e o = Some M -> NoDup al ->
  forall text, (1 <= o)%nat -> (0 < length al)%nat -> over al text \/ (length text <= o)%nat -> let n := length al in
  exists P, getNthOrderPi M text = Some P /\ rows_proportional (n ^ o) (n ^ o) (context_weight al text o) P /\
    forall i j, (i < n ^ o)%nat -> (j < n ^ o)%nat -> ~ overlap (ith_string al o i) (ith_string al o j) ->
      exists p, get2 P i j = Some p /\ p <= / 10 ^ 12 / INR n.
Proof. exact transitions. Qed.
Print Assumptions C58_transitions.

Theorem C58_prior :
  forall al e o M, text_init al e o = Some M -> NoDup al ->
  forall text, over al text \/ (length text < o)%nat -> (0 < length al)%nat ->
  exists p, getNthOrderPrior M text = Some p /\
    proportional (length al ^ o) (fun i => 1 + INR (occurrences (ith_string al o i) text)) p.
Proof. exact priorN. Qed.
Print Assumptions C58_prior.

(** texts with characters outside the alphabet, and the empty text, are rejected *)
Theorem C58_raises :
  forall al e o M, text_init al e o = Some M -> NoDup al -> forall text,
  (text = [] \/ ((2 <= length text)%nat /\ ~ over al text) -> get1stOrderPi M text = None) /\
  (~ over al text -> get1stOrderPrior M text = None) /\
  ((1 <= o)%nat -> (o < length text)%nat -> ~ over al text -> getNthOrderPi M text = None) /\
  ((1 <= o)%nat -> (o <= length text)%nat -> ~ over al text -> getNthOrderPrior M text = None).
Proof. exact raises. Qed.
Print Assumptions C58_raises.

(** characters and indices; a context index is read as its last character *)
Theorem C58_conversion :
  forall al e o M, text_init al e o = Some M -> NoDup al -> let n := length al in
  (forall text ys, textToIndex M text = Some ys <-> Forall2 (fun c y => nth_error al y = Some c) text ys) /\
  (forall text, textToIndex M text = None <-> ~ over al text) /\
  (forall text ys, textToIndex M text = Some ys -> indexToText M ys = Some text) /\
  ((0 < n)%nat -> forall ys, exists t, indexToText M ys = Some t /\ textToIndex M t = Some (map (fun y => y mod n)%nat ys)) /\
  ((0 < n)%nat -> (1 <= o)%nat -> forall xs, indexToText M xs = Some (map (fun i => last (ith_string al o i) 0%nat) xs)).
Proof. exact conversion. Qed.
Print Assumptions C58_conversion.

(** noise keeps the length and the alphabet, and draws each character from the output table *)
Theorem C58_noise :
  forall al e o M, text_init al e o = Some M -> NoDup al ->
  forall (u : nat -> R) text, probability e -> over al text -> (forall i, unit_draw (u i)) ->
  exists t' ys ks, makeNoisyText M u text = Some t' /\ textToIndex M text = Some ys /\ textToIndex M t' = Some ks /\
    length t' = length text /\ over al t' /\
    forall i, (i < length text)%nat -> exists row, nth_error (get1stOrderPo M) (nth i ys 0%nat) = Some row /\ in_slot row (nth i ks 0%nat) (u i).
Proof. exact noisy. Qed.
Print Assumptions C58_noise.

Theorem C58_no_noise :
  forall al e o M, text_init al e o = Some M -> NoDup al ->
  forall (u : nat -> R) text, e = 0 -> over al text -> (forall i, unit_draw (u i)) -> makeNoisyText M u text = Some text.
Proof. exact no_noise. Qed.
Print Assumptions C58_no_noise.

(** training and decoding: the path found is a most probable one and is read off as text *)
Theorem C58_decoding :
  forall al e o M, text_init al e o = Some M -> NoDup al ->
  forall train test, 0 < e <= 1 -> (1 <= o)%nat -> over al train -> over al test -> test <> [] ->
  exists prior P ys est Vs, getNthOrderPrior M train = Some prior /\ getNthOrderPi M train = Some P /\
    textToIndex M test = Some ys /\
    seqViterbi prior P (getNthOrderPo M) ys = Some (est, Vs) /\ MAP (length al ^ o) prior P (getNthOrderPo M) ys est /\
    indexToText M est = Some (map (fun i => last (ith_string al o i) 0%nat) est).
Proof. exact decode. Qed.
Print Assumptions C58_decoding.

Example C58_model_example : exists M, text_init [97; 98]%nat (1/10) 2 = Some M /\
  cond_chars M = [[97; 97]; [97; 98]; [98; 97]; [98; 98]]%nat /\ cond_index M [98; 97]%nat = Some 2%nat /\ cond_index M [98; 99]%nat = None /\
  textToIndex M [98; 97; 97]%nat = Some [1; 0; 0]%nat /\ indexToText M [2; 3; 1]%nat = Some [97; 98; 98]%nat.
Proof. exact ex_text. Qed.
Example C58_text_example : NoDup [97; 98]%nat /\ over [97; 98]%nat [97; 98; 97; 98; 98]%nat /\ probability (1/10) /\
  occurrences [97; 98]%nat [97; 98; 97; 98; 98]%nat = 2%nat /\ occurrences [97; 98; 97]%nat [97; 98; 97; 98; 98]%nat = 1%nat /\
  context_weight [97; 98]%nat [97; 98; 97; 98; 98]%nat 2 1 2 = / 10 ^ 12 + (1 + 1) /\
  context_weight [97; 98]%nat [97; 98; 97; 98; 98]%nat 2 0 3 = / 10 ^ 12 + 0.
Proof. exact ex_alphabet. Qed.
Example C58_foreign_example : ~ over [97; 98]%nat [97; 99]%nat.
Proof. exact ex_foreign. Qed.
