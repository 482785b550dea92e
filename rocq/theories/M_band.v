(** Model of the bootstrap band of the reliability diagram, visualization/reliability.py 113-132.
    The random draws are parameters: [choice m] are the indices that np.random.choice returns in
    round m, [rvs m p] the outcomes that bernoulli.rvs returns for the probabilities p.
    n_bootstrap = 0, where np.array([]) has one axis only, is not modelled.  Model file: no proofs. *)
From Verif Require Export M_corp.
From Coq Require Import String.
Open Scope nat_scope.

(** [bernoulli.rvs(p)]: scipy refuses probabilities outside [0, 1] and NaN *)
Definition bernoulli_rvs (rvs : list num -> list num) (p : list num) : res (list num) :=
  if forallb (fun q => nleb (Fin 0) q && nleb q (Fin 1)) p then Ok (rvs p) else Err ValueError.

(** [np.interp(x, xp, fp, left=nan, right=nan)] at one point, for non-empty [xp]: j is the last
    index with xp[j] <= x *)
Definition ninterp (xp fp : list num) (x : num) : num :=
  let c := List.length (filter (fun v => nleb v x) xp) in
  if c =? 0 then NaN else
  let j := c - 1 in
  if neqb (ith xp j) x then ith fp j else
  if c =? List.length xp then NaN else
  (ith fp (S j) .- ith fp j) ./ (ith xp (S j) .- ith xp j) .* (x .- ith xp j) .+ ith fp j.

(** [np.nanpercentile(l, 100 q)] of one column, the linear method; q is in [0, 1] *)
Definition npercentile (q : R) (l : list num) : num :=
  let v := nsort (filter (fun a => negb (nisnan a)) l) in
  match v with
  | [] => NaN
  | _ =>
      let h := (q * INR (List.length v - 1))%R in
      let k := Z.to_nat (Int_part h) in
      let t := (h - INR k)%R in
      ith v k .+ Fin t .* (ith v (min (S k) (List.length v - 1)) .- ith v k)
  end.
Definition nanpercentile (q : num) (N : nat) (rows : list (list num)) : res (list num) :=
  match q with
  | Fin q => if Rle_dec 0 q then if Rle_dec q 1 then
               Ok (map (fun i => npercentile q (map (fun r => ith r i) rows)) (seq 0 N))
             else Err ValueError else Err ValueError
  | _ => Err ValueError
  end.

(** 117-127, one round *)
Definition band_round (srt : list num -> list nat) (choice : list nat) (rvs : list num -> list num)
    (bandtype : string) (x cep : list num) : res (list num) :=
  let _x := map (ith x) choice in
  let* _y := (if String.eqb bandtype "consistency" then bernoulli_rvs rvs _x
              else if String.eqb bandtype "confidence" then bernoulli_rvs rvs (map (ith cep) choice)
              else Err UnboundLocalError) in
  let* (_x, _y, _cep) := corp_reliability srt _y _x in
  Ok (map (ninterp _x _cep) x).
(** 116-127, the loop over the rounds *)
Fixpoint band_rounds (round : nat -> res (list num)) (ms : list nat) : res (list (list num)) :=
  match ms with
  | [] => Ok []
  | m :: ms' => let* r := round m in let* rs := band_rounds round ms' in Ok (r :: rs)
  end.
(** 113-132 *)
Definition _uncertainty_band (srt : list num -> list nat) (choice : nat -> list nat)
    (rvs : nat -> list num -> list num) (x cep : list num) (n_bootstrap : nat) (bandtype : string)
    (alpha : num) : res (list num * list num) :=
  let N := List.length x in
  let* res := band_rounds (fun m => band_round srt (choice m) (rvs m) bandtype x cep) (seq 0 n_bootstrap) in
  let* ql := nanpercentile alpha N res in
  let* qu := nanpercentile (Fin 1 .- alpha) N res in
  Ok (ql, qu).
