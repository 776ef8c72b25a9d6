(* Proofs about RobustScale.fit and RobustScaler. *)
From mathcomp Require Import all_ssreflect all_algebra.
From mathcomp.zify Require Import zify.
From mathcomp.algebra_tactics Require Import ring.
From Verif Require Import RFieldLra Prelude Xnum Fit_Model.

Set Implicit Arguments.
Unset Strict Implicit.
Unset Printing Implicit Defensive.

Import Order.TTheory GRing.Theory Num.Theory.
Local Open Scope ring_scope.

Section Proofs.
Variable T : realFieldType.
Notation num := (xnum T).
Variable calc : seq num -> res (num * num).
Implicit Types (e : rscale T) (X : arr T).

Lemma rs_fit_flag e X ign : can_handle_nan (rs_fit calc e X ign).2 = can_handle_nan e.
Proof.
by rewrite /rs_fit; case: ifP => // _; case: ifP => // _; case: (calc _).
Qed.

(* the outcome does not depend on the attributes; a failure leaves them alone *)
Definition fit_value (chn : bool) X ign : res (num * num) :=
  if ndim X != 1%N then Err ValueError
  else if ~~ chn && ~~ ign && has (@is_nan T) (vals X) then Err ValueError
  else calc (if ign && has (@is_nan T) (vals X) then [seq x <- vals X | ~~ is_nan x] else vals X).

Lemma rs_fitE e X ign :
  rs_fit calc e X ign =
  match fit_value (can_handle_nan e) X ign with
  | Ok r => (Ok tt, RScale (can_handle_nan e) (Some r))
  | Err x => (Err x, e) | NoFuel => (NoFuel, e) end.
Proof.
rewrite /rs_fit /fit_value; case: ifP => // _; case: ifP => // _.
Qed.

Lemma rs_fit_attrs e X ign :
  attrs (rs_fit calc e X ign).2 =
  if fit_value (can_handle_nan e) X ign is Ok r then Some r else attrs e.
Proof. by rewrite rs_fitE; case: (fit_value _ _ _). Qed.

Lemma rs_run_flag e calls : can_handle_nan (rs_run calc e calls) = can_handle_nan e.
Proof. by elim: calls e => //= c l IH e; rewrite IH rs_fit_flag. Qed.

Lemma rs_run_none e calls :
  all (fun c => ~~ is_ok (fit_value (can_handle_nan e) c.1 c.2)) calls ->
  rs_run calc e calls = e.
Proof.
elim: calls e => //= c l IH e /andP[h1 h2].
have -> : (rs_fit calc e c.1 c.2).2 = e.
  by rewrite rs_fitE; case: (fit_value _ _ _) h1.
exact: IH.
Qed.

Lemma rs_run_last e pre X ign post r :
  fit_value (can_handle_nan e) X ign = Ok r ->
  all (fun c => ~~ is_ok (fit_value (can_handle_nan e) c.1 c.2)) post ->
  attrs (rs_run calc e (pre ++ (X, ign) :: post)) = Some r.
Proof.
move=> h1 h2.
have -> : rs_run calc e (pre ++ (X, ign) :: post)
        = rs_run calc (rs_fit calc (rs_run calc e pre) X ign).2 post by rewrite /rs_run foldl_cat.
have hf : can_handle_nan (rs_run calc e pre) = can_handle_nan e by exact: rs_run_flag.
have := @rs_run_none (rs_fit calc (rs_run calc e pre) X ign).2 post.
rewrite rs_fit_flag hf => /(_ h2) ->.
by rewrite rs_fit_attrs hf h1.
Qed.

(* the loop of RobustScaler.fit *)
Lemma scaler_loop_ok ctr scl ign e cs e' ls ss :
  scaler_loop calc ctr scl ign e cs = (Ok tt, e', (ls, ss)) ->
  exists2 vs, [seq fit_value (can_handle_nan e) (Arr 1 c) ign | c <- cs] = [seq Ok v | v <- vs]
  & ls = [seq (if ctr then v.1 else Fin 0) | v <- vs]
    /\ ss = [seq (if scl then v.2 else Fin 1) | v <- vs].
Proof.
elim: cs e e' ls ss => [|c cs IH] e e' ls ss /=; first by case=> _ <- <-; exists [::].
rewrite rs_fitE; case h: (fit_value (can_handle_nan e) (Arr 1 c) ign) => [[l s]|x|] //=.
case h2: (scaler_loop calc ctr scl ign _ cs) => [[r2 e2] [ls2 ss2]] [hr he hl hs].
rewrite hr in h2; have [vs h3 [h4 h5]] := IH _ _ _ _ h2.
exists ((l, s) :: vs); first by rewrite /= h3.
by rewrite /= -h4 -h5 hl hs.
Qed.

Lemma scaler_loop_size ctr scl ign e cs :
  size (scaler_loop calc ctr scl ign e cs).2.1 = size cs
  /\ size (scaler_loop calc ctr scl ign e cs).2.2 = size cs.
Proof.
elim: cs e => [|c cs IH] e //=; rewrite rs_fitE.
case h: (fit_value (can_handle_nan e) (Arr 1 c) ign) => [[l s]|x|] /=; rewrite ?size_nseq //.
have [] := IH (RScale (can_handle_nan e) (Some (l, s))).
by case: (scaler_loop calc ctr scl ign _ cs) => [[r2 e2] [ls2 ss2]] /= -> ->.
Qed.

Lemma scaler_loop_flags ign scl ctr e cs :
  (~~ ctr -> (scaler_loop calc ctr scl ign e cs).2.1 = nseq (size cs) (Fin 0))
  /\ (~~ scl -> (scaler_loop calc ctr scl ign e cs).2.2 = nseq (size cs) (Fin 1)).
Proof.
elim: cs e => [|c cs IH] e //=; rewrite rs_fitE.
case h: (fit_value (can_handle_nan e) (Arr 1 c) ign) => [[l s]|x|] //=.
have := IH (RScale (can_handle_nan e) (Some (l, s))).
case: (scaler_loop calc ctr scl ign _ cs) => [[r2 e2] [ls2 ss2]] /= [h1 h2].
by split=> hc; rewrite (negbTE hc) ?h1 ?h2.
Qed.

(* a failed fit in column k has already overwritten the parameters *)
Lemma scaler_loop_fail ctr scl ign e cs1 c cs2 vs x :
  [seq fit_value (can_handle_nan e) (Arr 1 c) ign | c <- cs1] = [seq Ok v | v <- vs] ->
  fit_value (can_handle_nan e) (Arr 1 c) ign = Err x ->
  exists2 e', can_handle_nan e' = can_handle_nan e
  & scaler_loop calc ctr scl ign e (cs1 ++ c :: cs2) =
    (Err x, e', ([seq (if ctr then v.1 else Fin 0) | v <- vs] ++ nseq (size cs2).+1 (Fin 0),
                 [seq (if scl then v.2 else Fin 1) | v <- vs] ++ nseq (size cs2).+1 (Fin 1))).
Proof.
elim: cs1 e vs => [|d cs1 IH] e [|v vs] //= h1 h2; first by exists e; rewrite ?rs_fitE ?h2.
case: h1 => h3 h4; rewrite rs_fitE h3 /=; case: v h3 => l s h3.
have [e' he ->] := IH (RScale (can_handle_nan e) (Some (l, s))) vs h4 h2.
by exists e'.
Qed.

(* round trips *)
Lemma row_roundtrip (ls ss xs : seq T) : size ls = size xs -> size ss = size xs ->
  all (fun s => s != 0) ss ->
  let p := ([seq Fin l | l <- ls], [seq Fin s | s <- ss]) in
  inverse_row p (transform_row p [seq Fin x | x <- xs]) = [seq Fin x | x <- xs]
  /\ transform_row p (inverse_row p [seq Fin x | x <- xs]) = [seq Fin x | x <- xs].
Proof.
elim: xs ls ss => [|x xs IH] [|l ls] [|s ss] //= [h1] [h2] /andP[s0 hs].
have [e1 e2] := IH ls ss h1 h2 hs.
rewrite /inverse_row /transform_row /= in e1 e2 *; rewrite (negbTE s0) /= e1 e2.
by split; congr (Fin _ :: _); [rewrite divfK // subrK|rewrite addrK mulfK].
Qed.

Lemma row_zero_scale (p : seq num * seq num) (row : seq num) k (x l : T) :
  (k < size row)%N -> size p.1 = size row -> size p.2 = size row ->
  nth NaN row k = Fin x -> nth NaN p.1 k = Fin l -> nth NaN p.2 k = Fin 0 ->
  (forall y, nth NaN (transform_row p row) k <> Fin y)
  /\ nth NaN (inverse_row p (transform_row p row)) k = NaN.
Proof.
case: p => ls ss /= hk h1 h2 hx hl hs.
have ht : nth NaN (transform_row (ls, ss) row) k = inf_sign (x - l).
  rewrite /transform_row (nth_map (NaN, (NaN, NaN))) ?size_zip /= ?h1 ?h2 ?minnn //.
  rewrite nth_zip ?size_zip ?h1 ?h2 ?minnn // nth_zip ?h1 ?h2 //= hx hl hs /= eqxx //.
have ni y : inf_sign (x - l) <> Fin y by rewrite /inf_sign; case: ifP => //; case: ifP.
split; first by move=> y; rewrite ht; exact: ni.
have st : size (transform_row (ls, ss) row) = size row.
  by rewrite size_map !size_zip /= h1 h2 !minnn.
rewrite /inverse_row (nth_map (NaN, (NaN, NaN))) ?size_zip /= ?st ?h1 ?h2 ?minnn //.
rewrite nth_zip ?size_zip ?st ?h1 ?h2 ?minnn // nth_zip ?h1 ?h2 //= ht hl hs.
rewrite /inf_sign; case: ifP => _ /=; first by rewrite /inf_sign ltxx.
by case: ifP => _ //=; rewrite /inf_sign oppr0 ltxx.
Qed.

(* several scalers *)
Lemma world_run_other w ops j : all (fun o => o.1.1 != j) ops ->
  scalers (world_run calc w ops) j = scalers w j.
Proof.
elim: ops w => //= o ops IH w /andP[h1 h2]; rewrite /world_run /= -/(world_run _ _ _) IH //.
rewrite /world_fit; case: (scaler_fit _ _ _ _ _) => [[r sc'] e'] /=.
by rewrite /upd eq_sym (negbTE h1).
Qed.

End Proofs.
