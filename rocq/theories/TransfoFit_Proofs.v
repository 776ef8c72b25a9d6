(* Proofs about RobustPowerTransformer.fit (Transfo_Model.v). *)
From Coq Require Import Reals Lra.
From mathcomp Require Import all_ssreflect.
From Verif Require Import Prelude XR Transfo_Model Transfo_Spec Transfo_Proofs.

Set Implicit Arguments.
Unset Strict Implicit.
Unset Printing Implicit Defensive.

Local Open Scope R_scope.


Lemma range_okP lam r : reflect (margin lam (lo_of r) (hi_of r)) (range_ok lam r).
Proof.
rewrite /range_ok; apply: (iffP (RltbP _ _)) => [h|[h1 h2]].
- by split; apply: Rlt_le_trans h _; [exact: Rmin_l | exact: Rmin_r].
- exact: Rmin_glb_lt.
Qed.

Section Fit.
Variable ms : (R -> res xr) -> R -> R -> res R.
Variable hb : seq xr -> res (xr * xr).
Variable rho : xr -> xr.
Variables (ppf chi : R -> R).

Notation fitbc := (fit_boxcox ms hb rho ppf chi).
Notation fityj := (fit_yeojohnson ms hb rho ppf chi).
Notation fitc := (fit_core ms hb rho ppf chi).
Notation fit := (fit ms hb rho ppf chi).

Lemma fit_boxcox_once k d std lo hi q ns x :
  fitbc k.+1 d std (PyList lo hi) q ns x = fitbc 1 d std (PyList lo hi) q ns x.
Proof. by []. Qed.

Lemma fit_yeojohnson_once k d std lo hi q ns x :
  fityj k.+1 d std (PyList lo hi) q ns x = fityj 1 d std (PyList lo hi) q ns x.
Proof. by []. Qed.

Lemma fit_boxcox_margin k d std lo hi q ns x f :
  fitbc k d std (PyList lo hi) q ns x = Ok f -> margin (fit_lambda f) lo hi.
Proof.
case: k => // k; rewrite fit_boxcox_once /=.
case: (calculate_lambda_0 _ _ _ _ _ _ _ _) => //= lr.
case: (reweighted_ml _ _ _ _ _ _ _ _ _ _) => //= l.
by case: (range_okP l.1.1 (PyList lo hi)) => //= h -[<-].
Qed.

Lemma fit_yeojohnson_margin k d std lo hi q ns x f :
  fityj k d std (PyList lo hi) q ns x = Ok f -> margin (fit_lambda f) lo hi.
Proof.
case: k => // k; rewrite fit_yeojohnson_once /=.
case: (calculate_lambda_0 _ _ _ _ _ _ _ _) => //= lr.
case: (reweighted_ml _ _ _ _ _ _ _ _ _ _) => //= l.
by case: (range_okP l.1.1 (PyList lo hi)) => //= h -[<-].
Qed.

(* the estimates of the one and only round *)
Definition bc_data (std : bool) (x : seq xr) : seq xr :=
  if std then arr_div x (np_median x) else x.
Definition yj_data (std : bool) (x : seq xr) : seq xr :=
  if std then arr_std x (np_median x) (mad_normal ppf x) else x.
Definition fit_dtype (std : bool) d : dtype := if std then F64 else d.

Lemma fit_boxcox_type_error k d std lo hi q ns x lr l mu sd :
  calculate_lambda_0 ms hb rho ppf (fit_dtype std d) (bc_data std x) TBoxcoxRect (PyList lo hi)
    = Ok lr ->
  reweighted_ml ms hb chi (fit_dtype std d) (bc_data std x) lr true (PyList lo hi) q ns
    = Ok (l, mu, sd) ->
  ~ margin l lo hi -> fitbc k.+1 d std (PyList lo hi) q ns x = Err TypeError.
Proof.
move=> h1 h2 h3; rewrite fit_boxcox_once /=.
have -> : (if (if std then Some (np_median x) else None) is Some s then arr_div x s else x)
   = bc_data std x by case: (std).
rewrite -/(fit_dtype std d) h1 /= h2 /=.
by case: (range_okP l (PyList lo hi)).
Qed.

Lemma fit_yeojohnson_type_error k d std lo hi q ns x lr l mu sd :
  calculate_lambda_0 ms hb rho ppf (fit_dtype std d) (yj_data std x) TYeojohnsonRect (PyList lo hi)
    = Ok lr ->
  reweighted_ml ms hb chi (fit_dtype std d) (yj_data std x) lr false (PyList lo hi) q ns
    = Ok (l, mu, sd) ->
  ~ margin l lo hi -> fityj k.+1 d std (PyList lo hi) q ns x = Err TypeError.
Proof.
move=> h1 h2 h3; rewrite fit_yeojohnson_once /=.
have -> : (match (if std then Some (np_median x) else None),
                 (if std then Some (mad_normal ppf x) else None) with
           | Some l, Some s => arr_std x l s | _, _ => x end) = yj_data std x by case: (std).
rewrite -/(fit_dtype std d) h1 /= h2 /=.
by case: (range_okP l (PyList lo hi)).
Qed.

(* -------- objects and their histories -------- *)
Definition run (k : nat) (t : transformer) (hs : seq (dtype * seq xr)) : transformer :=
  foldl (fun t h => (fit k t h.1 h.2).1) t hs.

Lemma store_fit_config t m f : [/\ tr_standardize (store_fit t m f) = tr_standardize t,
  tr_range (store_fit t m f) = tr_range t, tr_quantile (store_fit t m f) = tr_quantile t &
  tr_nsteps (store_fit t m f) = tr_nsteps t].
Proof. by case: t => ? [] *; rewrite /store_fit. Qed.

Lemma fit_config k t d x (t' := (fit k t d x).1) : [/\ tr_standardize t' = tr_standardize t,
  tr_range t' = tr_range t, tr_quantile t' = tr_quantile t & tr_nsteps t' = tr_nsteps t].
Proof.
rewrite /t' /Transfo_Model.fit; case: (get_method _ _) => //= m.
case: (fit_core _ _ _ _ _ _ _ _ _ _) => //= -[m' f] /=.
exact: store_fit_config.
Qed.

Lemma run_config k t hs (t' := run k t hs) : [/\ tr_standardize t' = tr_standardize t,
  tr_range t' = tr_range t, tr_quantile t' = tr_quantile t & tr_nsteps t' = tr_nsteps t].
Proof.
rewrite /t'; elim: hs t {t'} => //= h hs IH t.
have [-> -> -> ->] := IH (fit k t h.1 h.2).1; exact: fit_config.
Qed.

Lemma fit_core_margin k d t m x m' f lo hi : tr_range t = PyList lo hi ->
  fitc k d t m x = Ok (m', f) -> margin (fit_lambda f) lo hi.
Proof.
rewrite /fit_core => ->; case: m.
- case E: (fitbc _ _ _ _ _ _ _) => [b||] //= -[_ <-]; exact: fit_boxcox_margin E.
- case E: (fityj _ _ _ _ _ _ _) => [b||] //= -[_ <-]; exact: fit_yeojohnson_margin E.
- case E: (fitbc _ _ _ _ _ _ _) => [b||] //=.
  case: (robnormality _ _ _ _ _ _ _) => //= cb.
  case E2: (fityj _ _ _ _ _ _ _) => [y||] //=.
  case: (robnormality _ _ _ _ _ _ _) => //= cy.
  by case: ifP => _ [_ <-]; [exact: fit_boxcox_margin E | exact: fit_yeojohnson_margin E2].
- case E: (fityj _ _ _ _ _ _ _) => [b||] //= -[_ <-]; exact: fit_yeojohnson_margin E.
Qed.

Lemma store_fit_lambda t m f : tr_lambda (store_fit t m f) = Some (fit_lambda f).
Proof. by rewrite /store_fit; case: ifP. Qed.
Lemma store_fit_method t m f : tr_method (store_fit t m f) = m.
Proof. by rewrite /store_fit; case: ifP. Qed.

Lemma fit_margin k m std lo hi q ns hs d x (t := run k (new_transformer m std lo hi q ns) hs) :
  (fit k t d x).2 = Ok tt ->
  exists2 l, tr_lambda (fit k t d x).1 = Some l & margin l lo hi.
Proof.
have [_ er _ _] := run_config k (new_transformer m std lo hi q ns) hs.
rewrite /Transfo_Model.fit; case: (get_method _ _) => //= m1.
case E: (fit_core _ _ _ _ _ _ _ _ _ _) => [[m' f]||] //= _.
exists (fit_lambda f); first exact: store_fit_lambda.
by apply: (fit_core_margin _ E); rewrite /set_method /= er.
Qed.

(* fit_core depends on the configuration only *)
Lemma fit_core_config k d t t' m x : tr_standardize t = tr_standardize t' ->
  tr_range t = tr_range t' -> tr_quantile t = tr_quantile t' -> tr_nsteps t = tr_nsteps t' ->
  fitc k d t m x = fitc k d t' m x.
Proof. by move=> e1 e2 e3 e4; rewrite /fit_core e1 e2 e3 e4. Qed.

Lemma fit_core_method k d t m x m' f : fitc k d t m x = Ok (m', f) -> m <> Auto ->
  m <> Other -> m' = m.
Proof.
rewrite /fit_core; case: m => //.
- by case: (fitbc _ _ _ _ _ _ _) => //= b [<-].
- by case: (fityj _ _ _ _ _ _ _) => //= b [<-].
Qed.

Lemma fit_core_final k d t m x m' f : fitc k d t m x = Ok (m', f) -> m' <> Auto.
Proof.
rewrite /fit_core; case: m.
- by case: (fitbc _ _ _ _ _ _ _) => //= b [<-].
- by case: (fityj _ _ _ _ _ _ _) => //= b [<-].
- case: (fitbc _ _ _ _ _ _ _) => //= b; case: (robnormality _ _ _ _ _ _ _) => //= cb.
  case: (fityj _ _ _ _ _ _ _) => //= y; case: (robnormality _ _ _ _ _ _ _) => //= cy.
  by case: ifP => _ [<-].
- by case: (fityj _ _ _ _ _ _ _) => //= b [<-].
Qed.


Lemma get_method_explicit m x m' : explicit m -> get_method m x = Ok m' -> m' = m.
Proof.
by case=> ->; rewrite /=; [case: (check_positive x) => //= _ [<-] | case].
Qed.

(* what an object with an explicit method can look like after any history *)
Definition clean (m : meth) (t : transformer) : Prop :=
  [/\ tr_method t = m, m = Boxcox -> tr_location_pre t = None &
      ~~ tr_standardize t -> [/\ tr_scale_pre t = None, tr_location_pre t = None,
        tr_location_post t = None & tr_scale_post t = None]].

Lemma clean_fit k d t x m : explicit m -> clean m t -> clean m (fit k t d x).1.
Proof.
move=> em [e1 e2 e3]; rewrite /Transfo_Model.fit.
case G: (get_method _ _) => [m1||] //=.
have em1 : m1 = m by apply: get_method_explicit em _; rewrite -e1; exact: G.
have cs : clean m (set_method t m1) by split => //=.
case E: (fit_core _ _ _ _ _ _ _ _ _ _) => [[m' f]||] //=.
have e' : m' = m.
  by rewrite -em1; apply: (fit_core_method E); rewrite em1; case: em => ->.
rewrite /store_fit e' /=; case S: (tr_standardize t); split => //=.
- by move=> mb; rewrite mb /=; exact: e2.
- by move=> _; apply: e3; rewrite S.
Qed.

Lemma clean_run k hs t m : explicit m -> clean m t -> clean m (run k t hs).
Proof. by move=> em; elim: hs t => //= h hs IH t ct; apply: IH; exact: clean_fit. Qed.

Lemma clean_new m std lo hi q ns : clean m (new_transformer m std lo hi q ns).
Proof. by []. Qed.

Lemma refit_lem k m std lo hi q ns hs d x (t0 := new_transformer m std lo hi q ns)
    (t := run k t0 hs) : explicit m ->
  (fit k t d x).2 = (fit k t0 d x).2 /\
  ((fit k t d x).2 = Ok tt -> (fit k t d x).1 = (fit k t0 d x).1).
Proof.
move=> em; have [c1 c2 c3 c4] : [/\ tr_standardize t = std, tr_range t = PyList lo hi,
   tr_quantile t = q & tr_nsteps t = ns] by exact: run_config.
have [m1 m2 m3] : clean m t by apply: clean_run.
have ec m' : fitc k d (set_method t m') m' x = fitc k d (set_method t0 m') m' x.
  exact: fit_core_config.
rewrite /Transfo_Model.fit m1 /=.
case G: (get_method m x) => [m'||] //=.
have e' : m' = m by exact: get_method_explicit em G.
rewrite ec; case E: (fit_core _ _ _ _ _ _ _ _ _ _) => [[mm f]||] //=.
split => // _.
have e2 : mm = m by rewrite -e'; apply: (fit_core_method E); rewrite e'; case: em => ->.
rewrite /store_fit /= c1 c2 c3 c4 e2; case: (boolP std) => S.
- congr Tr; case: em => em; last by rewrite em.
  by rewrite em /=; apply: m2.
- by have [-> -> -> ->] := m3 (eq_ind_r (fun b => ~~ b) S c1).
Qed.

Lemma auto_sticks k lo hi std q ns hs1 d x hs2
    (t := run k (new_transformer Auto std lo hi q ns) hs1) :
  (fit k t d x).2 = Ok tt -> tr_method (run k (fit k t d x).1 hs2) = tr_method (fit k t d x).1.
Proof.
move=> ok; have ex : explicit (tr_method (fit k t d x).1).
  move: ok; rewrite /Transfo_Model.fit.
  case: (get_method _ _) => //= m1.
  case E: (fit_core _ _ _ _ _ _ _ _ _ _) => [[m' f]||] //= _.
  rewrite store_fit_method; have := fit_core_final E.
  move: E; rewrite /fit_core; case: m1.
  - by case: (fitbc _ _ _ _ _ _ _) => //= b [<- _] _; left.
  - by case: (fityj _ _ _ _ _ _ _) => //= b [<- _] _; right.
  - case: (fitbc _ _ _ _ _ _ _) => //= b; case: (robnormality _ _ _ _ _ _ _) => //= cb.
    case: (fityj _ _ _ _ _ _ _) => //= y; case: (robnormality _ _ _ _ _ _ _) => //= cy.
    by case: ifP => _ [<- _] _; [left | right].
  - by case: (fityj _ _ _ _ _ _ _) => //= b [<- _] _; right.
move: ex; move: (fit k t d x).1 => t1; elim: hs2 t1 => //= h hs IH t1 ex.
have e : tr_method (fit k t1 h.1 h.2).1 = tr_method t1.
  rewrite /Transfo_Model.fit; case G: (get_method _ _) => [m1||] //=.
  have em := get_method_explicit ex G.
  case E: (fit_core _ _ _ _ _ _ _ _ _ _) => [[m' f]||] //=; rewrite ?store_fit_method //.
  by rewrite -em; apply: (fit_core_method E); rewrite em; case: ex => ->.
by rewrite IH e.
Qed.

Lemma auto_nonpositive_lem k t d x : tr_method t = Boxcox ->
  ~~ has xisnan x -> has (fun u => xleb u (XF 0)) x -> fit k t d x = (t, Err ValueError).
Proof.
move=> em nn hp; rewrite /Transfo_Model.fit em /= check_positiveE.
by case: x nn hp => // a s /negbTE -> ->.
Qed.

Lemma auto_fresh_lem k std lo hi q ns d x :
  ~~ has xisnan x -> has (fun u => xleb u (XF 0)) x ->
  fit k (new_transformer Auto std lo hi q ns) d x =
  fit k (new_transformer Yeojohnson std lo hi q ns) d x.
Proof.
move=> nn hp; rewrite /Transfo_Model.fit /=.
have -> : (do mn <- np_min x; (if xleb mn (XF 0) then Ok Yeojohnson else Ok Auto)) = Ok Yeojohnson.
  case: x nn hp => // a s; rewrite /= negb_or => /andP [na ns'] hp.
  by rewrite foldl_min_leb // hp.
by [].
Qed.

Lemma auto_failed_fit_lem k t d x : tr_method t = Auto ->
  ~~ has xisnan x -> has (fun u => xleb u (XF 0)) x ->
  tr_method (fit k t d x).1 = Yeojohnson.
Proof.
move=> em nn hp; rewrite /Transfo_Model.fit em /=.
have -> : (do mn <- np_min x; (if xleb mn (XF 0) then Ok Yeojohnson else Ok Auto)) = Ok Yeojohnson.
  case: x nn hp => // a s; rewrite /= negb_or => /andP [na ns'] hp.
  by rewrite foldl_min_leb // hp.
case E: (fit_core _ _ _ _ _ _ _ _ _ _) => [[m' f]||] //=.
by rewrite store_fit_method; apply: (fit_core_method E).
Qed.

End Fit.
