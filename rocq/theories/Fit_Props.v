(* Property theorems: RobustScale.fit (C26), RobustScaler (C28, C29). *)
From mathcomp Require Import all_ssreflect all_algebra.
From Verif Require Import RFieldLra Prelude Xnum Fit_Model Fit_Proofs.

Set Implicit Arguments.
Unset Strict Implicit.
Unset Printing Implicit Defensive.

Import Order.TTheory GRing.Theory Num.Theory.
Local Open Scope ring_scope.

Section Props.
Variable T : realFieldType.
Notation num := (xnum T).
Variable calc : seq num -> res (num * num).
Implicit Types (e : rscale T) (X : arr T).

(* C26 *)
Theorem fit_rejects_multivariate e X ign : ndim X <> 1%N ->
  rs_fit calc e X ign = (Err ValueError, e).
Proof. by move/eqP => h; rewrite /rs_fit h. Qed.

Theorem fit_rejects_nan e X : ~~ can_handle_nan e -> has (@is_nan T) (vals X) ->
  rs_fit calc e X false = (Err ValueError, e).
Proof. by move=> h1 h2; rewrite /rs_fit h1 h2; case: ifP. Qed.

Theorem fit_ignore_nan e X ign : 
  rs_fit calc e X true = rs_fit calc e (Arr (ndim X) [seq x <- vals X | ~~ is_nan x]) ign.
Proof.
have h : has (@is_nan T) [seq x <- vals X | ~~ is_nan x] = false.
  by elim: (vals X) => //= x l IH; case: ifP => //= /negbTE ->.
rewrite /rs_fit /= h !andbF /=; case: ifP => // _.
case: ifP => // h2; congr (match calc _ with Ok _ => _ | Err _ => _ | NoFuel => _ end).
by elim: (vals X) h2 => //= x l IH /norP[h1 h2]; rewrite h1 -IH // (negbTE h2).
Qed.

Theorem fit_handles_nan e X : can_handle_nan e -> ndim X = 1%N ->
  rs_fit calc e X false =
  match calc (vals X) with
  | Ok r => (Ok tt, RScale true (Some r)) | Err x => (Err x, e) | NoFuel => (NoFuel, e) end.
Proof. by move=> h1 h2; rewrite /rs_fit h1 h2. Qed.

(* [outcome] is what a single fit on a fresh object does *)
Let succeeds (chn : bool) (c : arr T * bool) : option (num * num) :=
  attrs (rs_fit calc (RScale chn None) c.1 c.2).2.

Theorem fit_history chn calls :
  (* no call succeeded: the properties raise *)
  ((forall c, List.In c calls -> succeeds chn c = None) ->
     rs_location (rs_run calc (RScale chn None) calls) = Err NotFittedError
     /\ rs_scale (rs_run calc (RScale chn None) calls) = Err NotFittedError)
  (* otherwise they give the result of the last successful call *)
  /\ (forall pre c post r, calls = pre ++ c :: post -> succeeds chn c = Some r ->
       (forall d, List.In d post -> succeeds chn d = None) ->
       rs_location (rs_run calc (RScale chn None) calls) = Ok r.1
       /\ rs_scale (rs_run calc (RScale chn None) calls) = Ok r.2).
Proof.
have hs c : succeeds chn c = if fit_value calc chn c.1 c.2 is Ok r then Some r else None.
  by rewrite /succeeds rs_fit_attrs.
have hall l : (forall c, List.In c l -> succeeds chn c = None) ->
    all (fun c => ~~ is_ok (fit_value calc chn c.1 c.2)) l.
  elim: l => //= c l IH h; rewrite IH; last by move=> d hd; apply: h; right.
  by have := h c (or_introl erefl); rewrite hs; case: (fit_value _ _ _ _).
split; first by move=> h; rewrite (@rs_run_none _ calc (RScale chn None) calls (hall _ h)).
move=> pre [X ign] post r -> h1 h2.
have h3 : fit_value calc chn X ign = Ok r.
  by move: h1; rewrite hs /=; case: (fit_value _ _ _ _) => // v [->].
have := @rs_run_last _ calc (RScale chn None) pre X ign post r h3 (hall _ h2).
by rewrite /rs_location /rs_scale => ->.
Qed.

(* C28 *)
Theorem scaler_round_trip (sc : scaler T) (ls ss : seq T) (X : seq (seq T)) :
  params sc = Some ([seq Fin l | l <- ls], [seq Fin s | s <- ss]) ->
  size ls = size ss -> all (fun s => s != 0) ss -> all (fun r => size r == size ss) X ->
  let M := [seq [seq Fin x | x <- r] | r <- X] in
  (do Y <- transform sc M; inverse_transform sc Y) = Ok M
  /\ (do Y <- inverse_transform sc M; transform sc Y) = Ok M.
Proof.
move=> hp h1 h2 hX; rewrite /transform /inverse_transform hp /=.
split; congr Ok; rewrite -!map_comp; apply/eq_in_map => r /(allP hX)/eqP hr /=.
all: by have [] := @row_roundtrip T ls ss r; rewrite ?h1 ?hr.
Qed.

Theorem scaler_zero_scale (p : seq num * seq num) (row : seq num) k (x l : T) :
  (k < size row)%N -> size p.1 = size row -> size p.2 = size row ->
  nth NaN row k = Fin x -> nth NaN p.1 k = Fin l -> nth NaN p.2 k = Fin 0 ->
  (forall y, nth NaN (transform_row p row) k <> Fin y)
  /\ nth NaN (inverse_row p (transform_row p row)) k = NaN.
Proof. exact: row_zero_scale. Qed.

Theorem scaler_flags (sc : scaler T) e ign cs :
  let '(_, sc', _) := scaler_fit calc sc e ign cs in
  exists ls ss, [/\ params sc' = Some (ls, ss), size ls = size cs /\ size ss = size cs,
   ~~ with_centering sc -> ls = nseq (size cs) (Fin 0)
   & ~~ with_scaling sc -> ss = nseq (size cs) (Fin 1)].
Proof.
rewrite /scaler_fit.
have [s1 s2] := scaler_loop_size calc (with_centering sc) (with_scaling sc) ign e cs.
have [f1 f2] := scaler_loop_flags calc ign (with_scaling sc) (with_centering sc) e cs.
case: (scaler_loop _ _ _ _ _ _) s1 s2 f1 f2 => [[r e'] [ls ss]] /= s1 s2 f1 f2.
by exists ls, ss.
Qed.

(* the fitted parameters depend on the data and the flags only, whatever the
   shared estimator has been used for before *)
Theorem scaler_fit_depends_on_data (sc : scaler T) e1 e2 ign cs :
  can_handle_nan e1 = can_handle_nan e2 ->
  (scaler_fit calc sc e1 ign cs).1 = (scaler_fit calc sc e2 ign cs).1.
Proof.
move=> h; rewrite /scaler_fit.
suff : forall ctr scl, (scaler_loop calc ctr scl ign e1 cs).1.1 = (scaler_loop calc ctr scl ign e2 cs).1.1
    /\ (scaler_loop calc ctr scl ign e1 cs).2 = (scaler_loop calc ctr scl ign e2 cs).2.
  move=> /(_ (with_centering sc) (with_scaling sc)).
  case: (scaler_loop _ _ _ _ e1 _) => [[r e'] p]; case: (scaler_loop _ _ _ _ e2 _) => [[r2 e2'] p2] /=.
  by case=> -> ->.
move=> ctr scl; elim: cs e1 e2 h => [|c cs IH] e1 e2 h //=; rewrite !rs_fitE h.
case: (fit_value _ _ _ _) => [[l s]|x|] //=.
Qed.

(* C29 *)
Theorem scaler_isolation (w : world T) ops (j : nat) (X : seq (seq num)) : all (fun o => o.1.1 != j) ops ->
  transform (scalers (world_run calc w ops) j) X = transform (scalers w j) X
  /\ inverse_transform (scalers (world_run calc w ops) j) X = inverse_transform (scalers w j) X.
Proof. by move=> h; rewrite world_run_other. Qed.

(* but a fit that raises in some column has already replaced the parameters of
   an earlier fit: the columns from the failing one on get location 0 and scale 1 *)
Theorem scaler_failed_fit_overwrites (sc : scaler T) e ign cs1 c cs2 x :
  (forall d, List.In d cs1 -> exists r, (rs_fit calc e (Arr 1 d) ign).1 = Ok r) ->
  (rs_fit calc e (Arr 1 c) ign).1 = Err x ->
  let '(r, sc', _) := scaler_fit calc sc e ign (cs1 ++ c :: cs2) in
  r = Err x /\ exists ls ss, [/\ params sc' = Some (ls, ss),
     drop (size cs1) ls = nseq (size cs2).+1 (Fin 0)
   & drop (size cs1) ss = nseq (size cs2).+1 (Fin 1)].
Proof.
move=> h1 h2.
have h2' : fit_value calc (can_handle_nan e) (Arr 1 c) ign = Err x.
  by move: h2; rewrite rs_fitE; case: (fit_value _ _ _ _) => //= y [->].
have [vs hv] : exists vs, [seq fit_value calc (can_handle_nan e) (Arr 1 c) ign | c <- cs1] = [seq Ok v | v <- vs].
  elim: cs1 h1 {h2 h2'} => [|d l IH] h1; first by exists [::].
  have [|vs hv] := IH; first by move=> y hy; apply: h1; right.
  have [u] := h1 d (or_introl erefl); rewrite rs_fitE.
  case E: (fit_value _ _ _ _) => [v||] //= _; exists (v :: vs); by rewrite /= E hv.
have sv : size vs = size cs1 by have := congr1 size hv; rewrite !size_map.
rewrite /scaler_fit.
have [e' _ ->] := scaler_loop_fail (with_centering sc) (with_scaling sc) cs2 hv h2'.
split=> //; do 2 eexists; split; first by [].
  by rewrite drop_cat size_map sv ltnn subnn drop0.
by rewrite drop_cat size_map sv ltnn subnn drop0.
Qed.
End Props.

(* concrete cases: an estimator that stores the first value and the number of values *)
Definition demo_calc (s : seq (xnum rat)) : res (xnum rat * xnum rat) :=
  if s is x :: _ then Ok (x, Fin (size s)%:R) else Err ValueError.

Example fit_ex :
  [/\ (let r := rs_fit demo_calc (RScale false None) (Arr 1 [:: NaN; Fin 1; Fin 2%:Q]) true in
       (r.1, attrs r.2)) = (Ok tt, Some (Fin 1, Fin 2%:Q)),
      (let r := rs_fit demo_calc (RScale false None) (Arr 1 [:: NaN; Fin 1]) false in
       (r.1, attrs r.2)) = (Err ValueError, None)
    & attrs (rs_run demo_calc (RScale false None)
         [:: (Arr 1 [:: Fin 3%:Q], false); (Arr 2 [::], false); (Arr 1 [:: NaN], true)])
      = Some (Fin 3%:Q, Fin 1)].
Proof. by split; vm_compute. Qed.

Example scaler_ex :
  let r := scaler_fit demo_calc (Scaler 0 true true None) (RScale false None) false
     [:: [:: Fin 1; Fin 2%:Q]; [:: Fin 5%:Q; Fin 7%:Q]] in
  [/\ r.1.1 = Ok tt,
      params r.1.2 = Some ([:: Fin 1; Fin 5%:Q], [:: Fin 2%:Q; Fin 2%:Q])
    & transform r.1.2 [:: [:: Fin 3%:Q; Fin 7%:Q]] = Ok [:: [:: Fin 1; Fin 1]]].
Proof. by split; vm_compute. Qed.

Example scaler_fail_ex :
  (rs_fit demo_calc (RScale false None) (Arr 1 [:: Fin 1]) false).1 = Ok tt
  /\ (rs_fit demo_calc (RScale false None) (Arr 1 [:: NaN]) false).1 = Err ValueError.
Proof. by split; vm_compute. Qed.
Print Assumptions fit_rejects_multivariate.
Print Assumptions fit_rejects_nan.
Print Assumptions fit_ignore_nan.
Print Assumptions fit_handles_nan.
Print Assumptions fit_history.
Print Assumptions scaler_round_trip.
Print Assumptions scaler_zero_scale.
Print Assumptions scaler_flags.
Print Assumptions scaler_fit_depends_on_data.
Print Assumptions scaler_isolation.
Print Assumptions scaler_failed_fit_overwrites.
