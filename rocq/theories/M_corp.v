(** Model of scoringrules/visualization/reliability.py: the CORP reliability curve and its score
    decomposition, for one-dimensional arrays (lists).  The bootstrap band is in M_band.v;
    drawing is not modelled.  Model file: no proofs. *)
From Verif Require Export M_mv.
Open Scope nat_scope.

(** [scipy.optimize.isotonic_regression(y).x]: pool adjacent violators.  The stack holds the
    blocks from last to first, each with its sum and its length.  (scipy visits the blocks in
    another order; C66_isotonic shows that the result is the only minimiser.) *)
Definition bmean (b : num * nat) : num := fst b ./ nofnat (snd b).
Fixpoint pool (b : num * nat) (st : list (num * nat)) : list (num * nat) :=
  match st with
  | [] => [b]
  | p :: st' => if nleb (bmean b) (bmean p) then pool (fst p .+ fst b, snd p + snd b) st' else b :: st
  end.
Definition isotonic_regression (y : list num) : list num :=
  let st := fold_left (fun st v => pool (v, 1) st) y [] in
  flat_map (fun b => repeat (bmean b) (snd b)) (rev st).

(** 96-102, corp_reliability; [srt] is the algorithm of [np.argsort], which need not be stable *)
Definition corp_reliability (srt : list num -> list nat) (obs fct : list num)
    : res (list num * list num * list num) :=
  let prob_argsort := srt fct in
  let x := map (ith fct) prob_argsort in
  if existsb (fun i => length obs <=? i) prob_argsort then Err IndexError else
  let y := map (ith obs) prob_argsort in
  let cep := isotonic_regression y in
  Ok (x, y, cep).

(** 105-110, corp_score_decomposition *)
Definition corp_score_decomposition (x y cep : list num) : num * num * num :=
  let sc := nmean (map nsq (vsub y cep)) in
  let sx := nmean (map nsq (vsub y x)) in
  let m := nmean y in
  let sr := nmean (map (fun v => nsq (v .- m)) y) in
  (sc, sx, sr).

(** 70-71 and 85-87 of reliability_diagram: the three numbers printed in the diagram, MCB, DSC and
    UNC *)
Definition diagram_scores (srt : list num -> list nat) (obs fct : list num) : res (num * num * num) :=
  let* (x, y, cep) := corp_reliability srt obs fct in
  let '(sc, sx, sr) := corp_score_decomposition x y cep in
  Ok (sx .- sc, sr .- sc, sr).
