(** Model of core/crps/_closed.py: binomial (62-120), and the loop of hypergeometric (516-541), with the binomial
    distribution function of core/stats.py.  Model file: no proofs. *)
From Verif Require Export M_closed.
Open Scope nat_scope.

(** stats.py 202-207 *)
Definition _binom_cdf (k n prob : tensor) : tensor :=
  awhere (k <? sci 0)%A (sc 0) (abetainc (n - amin k n + sc (/ 10 ^ 36))%A (k + sci 1)%A (sci 1 - prob)%A).

(** number of entries of [np.arange(0, stop)]; numpy refuses non-finite bounds *)
Definition arange_len (stop : num) : res nat :=
  match stop with
  | Fin r => Ok (Z.to_nat (- Int_part (- r)))
  | _ => Err ValueError
  end.
(** [B.arange(0, n + 1)]; numpy converts an array of size one to its only entry *)
Definition arange_n (n : arr) : tensor :=
  if asize n =? 1 then
    let* len := arange_len (nadd (at_ n (map (fun _ => 0) (sh n))) (Fin 1)) in
    Ok (mkArr (dt n) [len] (fun i => nofnat (hd 0 i)))
  else Err TypeError.
(** [B.sum(x)] over all entries *)
Definition asum_all (x : tensor) : tensor :=
  let* a := x in Ok (mkArr (dt a) [] (fun _ => nsum (map (at_ a) (all_idx (sh a))))).
(** [a[i]] for the first axis *)
Definition afirst (a : arr) (i : nat) : arr := mkArr (dt a) (removelast (sh a)) (fun j => at_ a (j ++ [i])).
(** length of the first axis, as used by iteration *)
Definition alen (a : arr) : res nat :=
  match rev (sh a) with [] => Err TypeError | d :: _ => Ok d end.
Fixpoint collect {A} (l : list (res A)) : res (list A) :=
  match l with
  | [] => Ok []
  | x :: l => let* a := x in let* r := collect l in Ok (a :: r)
  end.
(** [B.stack(l, axis=-1)] of arrays without axes *)
Definition astack0 (l : list arr) : tensor :=
  match l with
  | [] => Err ValueError
  | a :: _ => Ok (mkArr (dt a) [length l] (fun i => match nth_error l (hd 0 i) with Some b => at_ b [] | None => NaN end))
  end.

(** the summand, lines 82-84 and 101-104 *)
Definition binom_term (obs x n prob : tensor) : tensor :=
  let w := _binom_pdf x n prob in
  let a := (_binom_cdf x n prob - sc (1 / 2) * w)%A in
  (w * ((obs <? x)%A - a) * (x - obs))%A.
(** 79-85, _inner *)
Definition binom_inner (obs n prob : arr) : tensor :=
  let* x := arange_n n in
  (sci 2 * asum_all (binom_term (Ok obs) (Ok x) (Ok n) (Ok prob)))%A.
(** 94-95: [a[:, None]] if there is more than one entry, else [a[None]] *)
Definition binom_expand (a : arr) : tensor :=
  if 1 <? asize a then aexpand (length (sh a) - 1) (Ok a) else aexpand (length (sh a)) (Ok a).
(** 62-120, binomial; _crps.py 643-690, crps_binomial *)
Definition crps_binomial (obs n prob : arr) : tensor :=
  let ones_like_n := (sc 0 * Ok n + sci 1)%A in
  if asize n =? 1 then
    let* x := arange_n n in
    if negb ((asize obs =? 1) && (asize prob =? 1)) then
      let* obs := (binom_expand obs * ones_like_n)%A in
      let* prob := (binom_expand prob * ones_like_n)%A in
      let* x := (aexpand 1 (Ok x) * ones_like_n)%A in
      (sci 2 * asum (binom_term (Ok obs) (Ok x) (Ok n) (Ok prob)))%A
    else (sci 2 * asum_all (binom_term (Ok obs) (Ok x) (Ok n) (Ok prob)))%A
  else
    let* obs := (if asize obs =? 1 then Ok obs * ones_like_n else Ok obs)%A in
    let* prob := (if asize prob =? 1 then Ok prob * ones_like_n else Ok prob)%A in
    let* l1 := alen obs in
    let* l2 := alen n in
    let* l3 := alen prob in
    (* [zip(obs, n, prob, strict=True)] notices the mismatch after the shortest is exhausted *)
    let* ss := collect (map (fun i => binom_inner (afirst obs i) (afirst n i) (afirst prob i)) (seq 0 (Nat.min l1 (Nat.min l2 l3)))) in
    if (l1 =? l2) && (l2 =? l3) then astack0 ss else Err ValueError.

(** ** hypergeometric, lines 516-541: the size of [n] is not 1 *)
(** [a.reshape(-1)], row-major *)
Definition ravel (a : arr) : list num := map (at_ a) (all_idx (sh a)).
Fixpoint flat (s i : list nat) : nat :=
  match s, i with
  | d :: s', k :: i' => flat s' i' * d + k
  | _, _ => 0
  end.
Definition areshape (l : list num) (s : list nat) : tensor :=
  if length l =? fold_right Nat.mul 1 s then Ok (mkArr DFloat s (fun i => nth (flat s i) l NaN)) else Err ValueError.
Definition broadcast4 (a b c d : arr) : res (arr * arr * arr * arr) :=
  match bshape (sh a) (sh b) with
  | None => Err ValueError
  | Some s0 =>
      match bshape s0 (sh c) with
      | None => Err ValueError
      | Some s1 =>
          match bshape s1 (sh d) with
          | None => Err ValueError
          | Some s => let on (x : arr) := mkArr (dt x) s (fun i => at_ x (bidx (sh x) i)) in Ok (on a, on b, on c, on d)
          end
      end
  end.
(** one pass of the loop, 521-540: [len] is the length of [x] *)
Definition hyper_sum (len : nat) (obs M m N : num) : num :=
  nmul (Fin 2) (nsum (map (fun x =>
    let f := hyper_p (nofnat x) M m N in
    nmul (nmul f (nadd (nsub (b2n (nltb obs (nofnat x))) (hyper_F x M m N)) (ndiv f (Fin 2))))
         (nsub (nofnat x) obs)) (seq 0 len))).
(** [l[i]] *)
Definition lookup (l : list num) (i : nat) : res num := match nth_error l i with Some x => Ok x | None => Err IndexError end.
Definition crps_hypergeometric_loop (obs m n k : arr) : tensor :=
  let* M := (Ok m + Ok n)%A in
  let* (obs, M, m, N) := broadcast4 obs M m k in
  let* s := collect (map (fun i =>
      let* n := lookup (ravel n) i in
      let* len := arange_len (nadd n (Fin 1)) in
      let* M := lookup (ravel M) i in
      let* m := lookup (ravel m) i in
      let* N := lookup (ravel N) i in
      let* obs := lookup (ravel obs) i in
      Ok (hyper_sum len obs M m N)) (seq 0 (asize n))) in
  areshape s (sh obs).
