(** * Plastic: Simulation::plasticity, /repo/src/simulation/plasticity.cpp *)
From Coq Require Import ZArith List Bool.
From Verif Require Import Num Tools Lin Types Transfer Rma.
Import ListNotations.
Local Open Scope num_scope.

Section Plastic.
  Context {A : Type} {NA : Num A} {G : Geo A}.
  (** Eigen::JacobiSVD with full U and V: (U, singular values, V).  The program relies on Eigen
      for it; here it is an arbitrary function, and theorems state the contract they need. *)
  Variable svd : TM -> TM * TV * TM.
  Variable uabs : A -> A.

  Definition add_dev (h : Hist A) (d : A) : Hist A :=
    mkHist (h_dev h + d) (h_vol h) (h_prad h) (h_dg h) (h_visc h) (h_muI h).
  Definition add_vol (h : Hist A) (d : A) : Hist A :=
    mkHist (h_dev h) (h_vol h + d) (h_prad h) (h_dg h) (h_visc h) (h_muI h).
  Definition set_prad (h : Hist A) (d : A) : Hist A :=
    mkHist (h_dev h) (h_vol h) d (h_dg h) (h_visc h) (h_muI h).
  Definition set_dg (h : Hist A) (d : A) : Hist A :=
    mkHist (h_dev h) (h_vol h) (h_prad h) d (h_visc h) (h_muI h).
  Definition set_visc (h : Hist A) (d : A) : Hist A :=
    mkHist (h_dev h) (h_vol h) (h_prad h) (h_dg h) d (h_muI h).
  Definition set_muI (h : Hist A) (d : A) : Hist A :=
    mkHist (h_dev h) (h_vol h) (h_prad h) (h_dg h) (h_visc h) d.

  (** What a plastic model does to F: nothing, U exp(hencky) V^T, or U V^T (plasticity.cpp:191). *)
  Inductive FUpd := Keep | Rebuild | Rotation.
  (** Result of a plastic model on the principal Hencky strains: the final [hencky] (used for the
      stress, plasticity.cpp:701-703), the update of F, history, plastic_count, exit. *)
  Record MR := mkMR { r_hencky : TV; r_upd : FUpd; r_h : Hist A; r_cnt : nat; r_exit : bool }.

  (** Arguments of the plastic models: hencky, its trace, its normalised deviator and the norm of
      the deviator (plasticity.cpp:35-41). *)
  Record Tr := mkTr { t_e : TV; t_tr : A; t_dir : TV; t_n : A }.
  Definition trial (sigma : TV) : Tr :=
    let hencky := vmap (fun s => nlog (cmax (nabs s) (1//10000))) sigma in
    let tr := vsum hencky in
    let dev := vsub hencky (lscale (tr / dimA) vones) in
    let n := vnorm dev in
    mkTr hencky tr (if n >? #0 then vdivs dev n else dev) n.

  Definition e14 : A := nofQ 1 100000000000000.        (* 1e-14 *)
  Definition e10 : A := nofQ 1 10000000000.            (* 1e-10 *)

  (** plasticity.cpp:44-63 *)
  Definition pl_VM (p : Par A) (dt : A) (t : Tr) (h : Hist A) : MR :=
    let dg := t_n t - q_max p / e_mu_prefac p in
    if dg >? #0 then
      mkMR (vsub (t_e t) (lscale dg (t_dir t))) Rebuild
           (add_dev (set_dg h (d_prefac p * dg / dt)) dg) 1 false
    else mkMR (t_e t) Keep h 0 false.

  (** hencky -= (1.0/d_prefac) * delta_gamma * hencky_deviatoric, e.g. plasticity.cpp:93 *)
  Definition shear_back (p : Par A) (t : Tr) (dg : A) : TV :=
    vsub (t_e t) (lscale (#1 / d_prefac p * dg) (t_dir t)).
  (** hencky = -p_proj/(K*dim) * TV::Ones(), e.g. plasticity.cpp:78 *)
  Definition iso (p : Par A) (p_proj : A) : TV := lscale (- p_proj / (bulkK p * dimA)) vones.

  (** plasticity.cpp:65-99 *)
  Definition pl_DP (p : Par A) (dt : A) (t : Tr) (h : Hist A) : MR :=
    let K := bulkK p in
    let p_trial := - K * t_tr t in
    let q_yield := Mfric p * p_trial + q_cohesion p in
    if q_yield <? e10 then
      let p_proj := - q_cohesion p / Mfric p in
      let dg := d_prefac p * t_n t in
      mkMR (iso p p_proj) Rebuild
           (add_vol (add_dev (set_dg h (dg / dt)) (#1 / d_prefac p * dg)) ((p_proj - p_trial) / K))
           1 false
    else
      let dg := d_prefac p * (t_n t - q_yield / e_mu_prefac p) in
      if dg >? #0 then
        mkMR (shear_back p t dg) Rebuild
             (add_dev (set_dg h (dg / dt)) (#1 / d_prefac p * dg)) 1 false
      else mkMR (t_e t) Keep h 0 false.

  (** plasticity.cpp:101-176 *)
  Definition pl_DPSoft (p : Par A) (dt : A) (t : Tr) (h : Hist A) : MR :=
    let K := bulkK p in
    let M := Mfric p in
    let p_trial := - K * t_tr t in
    let q_trial := e_mu_prefac p * t_n t in
    let p_tip_orig := - q_cohesion p / M in
    let p_tip := p_tip_orig * nexp (- xi p * h_dev h) in
    let p_shift := if use_pradhana p then - K * h_prad h else #0 in
    let q_yield := M * (p_trial + p_shift) + (- p_tip * M) in
    if (p_trial + p_shift) <=? p_tip then                                    (* :118-133 *)
      let p_proj := p_tip_orig * nexp (- xi p * h_dev h) in
      let dg := d_prefac p * t_n t in
      let ev := (p_proj - p_trial) / K in
      let h1 := add_vol (add_dev (set_dg h (dg / dt)) (#1 / d_prefac p * dg)) ev in
      mkMR (iso p p_proj) Rebuild
           (if use_pradhana p then set_prad h1 (h_prad h1 + ev) else h1) 1 false
    else if ((p_trial + p_shift) >? p_tip) && (q_trial <=? q_yield) then     (* :136-140 *)
      let h1 := if use_pradhana p then set_prad h #0 else h in
      mkMR (t_e t) Keep (set_dg h1 #0) 0 false
    else if ((p_trial + p_shift) >? p_tip) && (q_trial >? q_yield) then      (* :143-174 *)
      let temp := h_dev h + (t_n t - q_yield / e_mu_prefac p) in
      let p_proj := p_tip_orig * nexp (- xi p * temp) in
      if (p_trial + p_shift) <? p_proj then
        let dg := d_prefac p * t_n t in
        let ev := (p_proj - p_trial) / K in
        let h1 := add_vol (add_dev (set_dg h (dg / dt)) (#1 / d_prefac p * dg)) ev in
        mkMR (iso p p_proj) Rebuild
             (if use_pradhana p then set_prad h1 (h_prad h1 + ev) else h1) 1 false
      else
        let q_yield_new := M * (p_trial + p_shift) + (- p_proj * M) in
        let dg := d_prefac p * (t_n t - q_yield_new / e_mu_prefac p) in
        let h1 := set_dg (add_dev h (#1 / d_prefac p * dg)) (dg / dt) in
        mkMR (shear_back p t dg) Rebuild
             (if use_pradhana p then set_prad h1 #0 else h1) 1 false
    else mkMR (t_e t) Keep h 0 false.

  (** The scalar Newton loop of the viscous models, plasticity.cpp:217-264, 335-378, 616-645:
      max_iter = 60, exit is set when the last iteration is entered. *)
  Fixpoint newton (n : nat) (res resd : A -> A) (dg : A) (ex : bool) : A * bool :=
    match n with
    | O => (dg, ex)
    | S m =>
        let ex := match m with O => true | _ => ex end in
        let r := res dg in
        if nabs r <? 1//100 then (dg, ex)
        else
          let rd := resd dg in
          let rd := if nabs rd <? e14 then (if rd >=? #0 then e14 else - e14) else rd in
          let dg := dg - r / rd in
          let dg := if dg <? #0 then e10 else dg in
          newton m res resd dg ex
    end.

  (** Perzyna residual and derivative at fixed yield stress, plasticity.cpp:355-363, 623-632. *)
  Definition perz_res (p : Par A) (dt q_trial q_yield dg : A) : A :=
    let tm := visc_time p * dg + dt in
    let tmp1 := npow (dt / tm) (visc_exponent p) in
    (q_trial - f_mu_prefac p * dg) * tmp1 - q_yield.
  Definition perz_diff (p : Par A) (dt q_trial dg : A) : A :=
    let tm := visc_time p * dg + dt in
    let tmp := dt / tm in
    let tmp1 := npow tmp (visc_exponent p) in
    - f_mu_prefac p * tmp1
    + (q_trial - f_mu_prefac p * dg) * visc_exponent p * npow tmp (visc_exponent p - #1)
      * (- visc_time p * dt) / (tm * tm).
  (** Duvaut-Lions residual and derivative, plasticity.cpp:346-350. *)
  Definition dl_res (p : Par A) (dt q_trial q_yield dg : A) : A :=
    q_trial - q_yield
    - f_mu_prefac p * (npow (visc_time p / dt * dg) (visc_exponent p) + dg).
  Definition dl_diff (p : Par A) (dt dg : A) : A :=
    - f_mu_prefac p * (npow (visc_time p / dt) (visc_exponent p) * visc_exponent p
                       * npow dg (visc_exponent p - #1) + #1).
  (** Closed forms for exponent 1, plasticity.cpp:203-208, 320-325. *)
  Definition visc_closed (p : Par A) (dt q_trial q_yield : A) : A :=
    if use_dl p
    then (q_trial - q_yield) / (f_mu_prefac p * (#1 + visc_time p / dt))
    else (q_trial - q_yield) / (f_mu_prefac p + q_yield * visc_time p / dt).

  (** plasticity.cpp:178-273 *)
  Definition pl_VMVisc (p : Par A) (dt : A) (t : Tr) (h : Hist A) : MR :=
    let K := bulkK p in
    let q_trial := e_mu_prefac p * t_n t in
    let yield := fun ed => q_min p + (q_max p - q_min p) * nexp (- xi p * ed) in
    let q_yield := yield (h_dev h) in
    let p_trial := - K * t_tr t in
    if p_trial <? p_min p * nexp (- xi p * h_vol h) then                     (* :188-195 *)
      let dg := q_trial / f_mu_prefac p in
      mkMR (t_e t) Rotation
           (set_dg (add_dev (add_vol h (- p_trial / K)) (#1 / d_prefac p * dg)) (dg / dt)) 0 false
    else if q_trial >? q_yield then                                          (* :198-271 *)
      let '(dg, ex) :=
        if (visc_exponent p =? #1) && (xi p =? #0) then
          let dg := visc_closed p dt q_trial q_yield in (dg, dg <? #0)
        else
          let at_ := fun dg => h_dev h + #1 / d_prefac p * dg in
          let qy := fun dg => yield (at_ dg) in
          let qyd := fun dg =>
            - xi p / d_prefac p * (q_max p - q_min p) * nexp (- xi p * at_ dg) in
          newton 60
            (fun dg => if use_dl p then dl_res p dt q_trial (qy dg) dg
                       else perz_res p dt q_trial (qy dg) dg)
            (fun dg => if use_dl p
                       then - qyd dg - f_mu_prefac p
                              * (npow (visc_time p / dt) (visc_exponent p) * visc_exponent p
                                 * npow dg (visc_exponent p - #1) + #1)
                       else perz_diff p dt q_trial dg - qyd dg)
            (1//100 * (q_trial - q_yield) / f_mu_prefac p) false in
      mkMR (shear_back p t dg) Rebuild
           (set_dg (add_dev h (#1 / d_prefac p * dg)) (dg / dt)) 1 ex
    else mkMR (t_e t) Keep h 0 false.

  (** plasticity.cpp:275-394 *)
  Definition pl_DPVisc (p : Par A) (dt : A) (t : Tr) (h : Hist A) : MR :=
    let K := bulkK p in
    let M := Mfric p in
    let p_trial := - K * t_tr t in
    let q_trial := e_mu_prefac p * t_n t in
    let p_tip := - q_cohesion p / M in
    let p_shift := if use_pradhana p then - K * h_prad h else #0 in
    let q_yield := M * (p_trial + p_shift) + q_cohesion p in
    let h0 := if use_mibf p then set_muI h M else h in
    if (p_trial + p_shift) <? p_tip then                                     (* :294-306 *)
      let dg := d_prefac p * t_n t in
      let ev := (p_tip - p_trial) / K in
      let h1 := add_vol (add_dev (set_dg h0 (dg / dt)) (#1 / d_prefac p * dg)) ev in
      mkMR (iso p p_tip) Rebuild
           (if use_pradhana p then set_prad h1 (h_prad h1 + ev) else h1) 1 false
    else
      let h1 := set_dg (if use_pradhana p then set_prad h0 #0 else h0) #0 in  (* :307-311 *)
      if ((p_trial + p_shift) >? p_tip) && (q_trial >? q_yield) then         (* :314-393 *)
        let '(dg, ex) :=
          if visc_exponent p =? #1 then
            let dg := visc_closed p dt q_trial q_yield in (dg, dg <? #0)
          else
            newton 60
              (fun dg => if use_dl p then dl_res p dt q_trial q_yield dg
                         else perz_res p dt q_trial q_yield dg)
              (fun dg => if use_dl p then dl_diff p dt dg else perz_diff p dt q_trial dg)
              (1//100 * (q_trial - q_yield) / f_mu_prefac p) false in
        let h2 := if use_mibf p then
                    set_muI h1 (if nabs (p_trial + p_shift) <? e10 then #10000000000
                                else ((q_trial - f_mu_prefac p * dg) - q_cohesion p)
                                     / (p_trial + p_shift))
                  else h1 in
        mkMR (shear_back p t dg) Rebuild
             (set_dg (add_dev h2 (#1 / d_prefac p * dg)) (dg / dt)) 1 ex
      else mkMR (t_e t) Keep h1 0 false.

  (** The positive root of a x^2 + b x + c, plasticity.cpp:443, 521. *)
  Definition quad_root (a b c : A) : A := (- b + nsqrt (b * b - #4 * a * c)) / (#2 * a).

  (** plasticity.cpp:397-458 *)
  Definition pl_DPMui (p : Par A) (dt : A) (t : Tr) (h : Hist A) : MR :=
    let K := bulkK p in
    let p_trial := - K * t_tr t in
    let q_trial := e_mu_prefac p * t_n t in
    let p_tip := - q_cohesion p / mu_1 p in
    let p_shift := if use_pradhana p then - K * h_prad h else #0 in
    let h0 := set_visc (set_muI h (mu_1 p)) #0 in
    if (p_trial + p_shift) <? p_tip then                                     (* :413-423 *)
      let dg := d_prefac p * t_n t in
      let ev := (p_tip - p_trial) / K in
      let h1 := add_vol (add_dev (set_dg h0 dg) (#1 / d_prefac p * dg)) ev in
      mkMR (iso p p_tip) Rebuild (set_prad h1 (h_prad h1 + ev)) 1 false
    else
      let h1 := set_prad h0 #0 in                                            (* :424-426 *)
      let q_yield := mu_1 p * (p_trial + p_shift) + q_cohesion p in
      if ((p_trial + p_shift) >? p_tip) && (q_trial >? q_yield + stress_tolerance p) then
        let p_special := p_trial + p_shift - p_tip + stress_tolerance p in   (* :432-456 *)
        let fac_a := f_mu_prefac p * dt in
        let fac_b := p_trial * (mu_2 p - mu_1 p)
                     + f_mu_prefac p * dt * fac_Q p * nsqrt p_special - (q_trial - q_yield) in
        let fac_c := - (q_trial - q_yield) * fac_Q p * nsqrt p_special in
        let gd := quad_root fac_a fac_b fac_c in
        let mu_i := mu_1 p + (mu_2 p - mu_1 p) / (fac_Q p * nsqrt p_special / gd + #1) in
        let h2 := set_visc (set_muI h1 mu_i) ((mu_i - mu_1 p) * p_special / gd) in
        let dg := gd * dt in
        mkMR (shear_back p t dg) Rebuild
             (set_dg (add_dev h2 (#1 / d_prefac p * dg)) (dg / dt)) 1 false
      else mkMR (t_e t) Keep h1 0 false.

  (** p_c of the explicit laws, plasticity.cpp:473, 478, 561, 566 *)
  Definition pc_expo (p : Par A) (ev : A) : A := p0 p * nexp (- xi p * ev).
  Definition pc_sinh (p : Par A) (ev : A) : A :=
    bulkK p * nsinh (- xi p * ev + nasinh (p0 p / bulkK p)).

  (** Selection of the return mapping algorithm: plasticity.cpp:472-493 (MCCMui, M = mu_1, no
      NoHard branch: [None]) and :556-580 (MCC, MCCVisc).  Also returns p_c when assigned. *)
  Definition mcc_rma (p : Par A) (mui : bool) (p_stress q_stress ev : A)
    : option (Rma A * option A) :=
    let K := bulkK p in
    let M := if mui then mu_1 p else Mfric p in
    match hardening_law p with
    | NoHard =>
        if mui then None
        else Some (MCCRMAExplicit uabs p_stress q_stress M (p0 p) (beta p) K (f_mu_prefac p), None)
    | ExpoExpl =>
        let p_c := cmax (stress_tolerance p) (pc_expo p ev) in
        Some (MCCRMAExplicit uabs p_stress q_stress M p_c (beta p) K (f_mu_prefac p), Some p_c)
    | SinhExpl =>
        let p_c := cmax (stress_tolerance p) (pc_sinh p ev) in
        Some (MCCRMAExplicit uabs p_stress q_stress M p_c (beta p) K (f_mu_prefac p), Some p_c)
    | ExpoImpl =>
        Some (MCCRMAImplicitExponentialOnevar uabs p_stress q_stress M (p0 p) (beta p) (mu p) K
                                              (xi p) ev, None)
    | SinhImpl =>
        Some (MCCRMAImplicitSinhOnevar p_stress q_stress M (p0 p) (beta p) (mu p) K (xi p) ev, None)
    end.

  (** plasticity.cpp:460-538.  With NoHard, perform_rma is read uninitialised (:499): undefined. *)
  Definition pl_MCCMui (p : Par A) (dt : A) (t : Tr) (h : Hist A) : res MR :=
    let K := bulkK p in
    let p_trial := - K * t_tr t in
    let q_trial := e_mu_prefac p * t_n t in
    match mcc_rma p true p_trial q_trial (h_vol h) with
    | None => UB
    | Some (r, pc) =>
        let h0 := set_visc (set_muI h (mu_1 p)) #0 in
        if rm_plastic r then
          let p_stress := rm_p r in
          let q_stress := rm_q r in
          let ep := p_stress / (K * dimA) in
          let ev := t_tr t + dimA * ep in
          let h1 := add_vol h0 ev in
          let '(q_fin, h2) :=
            if q_trial >? q_stress + stress_tolerance p then                  (* :506-532 *)
              let p_c :=
                match hardening_law p, pc with
                | ExpoImpl, _ => cmax (pc_expo p (h_vol h1)) (p_stress + stress_tolerance p)
                | SinhImpl, _ => cmax (pc_sinh p (h_vol h1)) (p_stress + stress_tolerance p)
                | _, Some c => c
                | _, None => #0                       (* not reached: p_c assigned at :473/:478 *)
                end in
              let p_special := p_stress + beta p * p_c + stress_tolerance p in
              let fac_a := f_mu_prefac p * dt in
              let fac_b := nsqrt ((p_c - p_stress) * p_special) * (mu_2 p - mu_1 p)
                           + f_mu_prefac p * dt * fac_Q p * nsqrt p_special
                           - (q_trial - q_stress) in
              let fac_c := - (q_trial - q_stress) * fac_Q p * nsqrt p_special in
              let gd := quad_root fac_a fac_b fac_c in
              let q' := cmax q_stress (q_trial - f_mu_prefac p * dt * gd) in
              let mu_i := mu_1 p + (mu_2 p - mu_1 p) / (fac_Q p * nsqrt p_special / gd + #1) in
              let h2 := set_visc (set_muI h1 mu_i)
                          ((mu_i - mu_1 p) * nsqrt ((p_c - p_stress) * p_special) / gd) in
              let dg := (q_trial - q') / f_mu_prefac p in
              (q', set_dg (add_dev h2 (#1 / d_prefac p * dg)) (dg / dt))
            else (q_stress, h1) in
          Ok (mkMR (vsub (lscale (q_fin / e_mu_prefac p) (t_dir t)) (lscale ep vones))
                   Rebuild h2 1 (rm_exit r))
        else Ok (mkMR (t_e t) Keep h0 0 (rm_exit r))
    end.

  (** plasticity.cpp:541-691.  muI with NoHard reads p_c uninitialised (:677): undefined. *)
  Definition pl_MCC (p : Par A) (dt : A) (t : Tr) (h : Hist A) : res MR :=
    let K := bulkK p in
    let p_trial := - K * t_tr t in
    let q_trial := e_mu_prefac p * t_n t in
    let h0 := if use_mibf p then set_muI h (Mfric p) else h in
    match mcc_rma p false p_trial q_trial (h_vol h) with
    | None => UB                                       (* not reached: every law has a branch *)
    | Some (r, pc) =>
        if rm_plastic r then
          let p_stress := rm_p r in
          let '(b, q_stress, ex) :=                                           (* :585-653 *)
            match plastic_model p with
            | MCCVisc =>
                if use_dl p then
                  (#1 / (#1 + visc_time p / dt), rm_q r, negb (visc_exponent p =? #1))
                else
                  let q_yield := rm_q r in
                  let '(dg, ex) :=
                    if visc_exponent p =? #1 then
                      let dg := (q_trial - q_yield)
                                / (f_mu_prefac p + q_yield * visc_time p / dt) in
                      if dg <? #0 then (if dg >? - e14 then (#0, false) else (dg, true))
                      else (dg, false)
                    else
                      newton 60 (perz_res p dt q_trial q_yield) (perz_diff p dt q_trial)
                             (1//100 * (q_trial - q_yield) / f_mu_prefac p) false in
                  (#1, cmax q_yield (q_trial - f_mu_prefac p * dg), ex)
            | _ => (#1, rm_q r, false)
            end in
          let ev := - b * (p_trial - p_stress) / K in
          let ed := b * (q_trial - q_stress) / e_mu_prefac p in
          let h1 := set_dg (add_dev (add_vol h0 ev) ed) (d_prefac p * ed / dt) in
          let hv := - p_trial / K - ev in
          let hd := q_trial / e_mu_prefac p - ed in
          let hencky := vadd (lscale hd (t_dir t)) (lscale (hv / dimA) vones) in
          h2 <- (if use_mibf p then                                           (* :669-688 *)
                   p_c <- match hardening_law p, pc with
                          | ExpoImpl, _ => Ok (cmax #0 (pc_expo p (h_vol h1)))
                          | SinhImpl, _ => Ok (cmax #0 (pc_sinh p (h_vol h1)))
                          | _, Some c => Ok c
                          | _, None => UB
                          end ;;
                   if (p_stress <? - beta p * p_c + stress_tolerance p)
                      || (p_stress >? p_c - stress_tolerance p)
                   then Ok (set_muI h1 (Mfric p))
                   else if use_dl p then
                     Ok (set_muI h1 (((e_mu_prefac p * hd - q_trial * (#1 - b)) / b)
                                     / nsqrt ((p_stress + beta p * p_c) * (p_c - p_stress))))
                   else
                     Ok (set_muI h1 (q_stress
                                     / nsqrt ((p_stress + beta p * p_c) * (p_c - p_stress))))
                 else Ok h1) ;;
          Ok (mkMR hencky Rebuild h2 1 (rm_exit r || ex))
        else Ok (mkMR (t_e t) Keep h0 0 (rm_exit r))
    end.

  (** plasticity.cpp:44-691: dispatch on the plastic model. *)
  Definition return_map (p : Par A) (dt : A) (t : Tr) (h : Hist A) : res MR :=
    match plastic_model p with
    | NoPlasticity => Ok (mkMR (t_e t) Keep h 0 false)
    | VM => Ok (pl_VM p dt t h)
    | DP => Ok (pl_DP p dt t h)
    | DPSoft => Ok (pl_DPSoft p dt t h)
    | VMVisc => Ok (pl_VMVisc p dt t h)
    | DPVisc => Ok (pl_DPVisc p dt t h)
    | DPMui => Ok (pl_DPMui p dt t h)
    | MCCMui => pl_MCCMui p dt t h
    | MCC | MCCVisc => pl_MCC p dt t h
    end.

  (** svd.matrixU() * hencky.array().exp().matrix().asDiagonal() * svd.matrixV().transpose() *)
  Definition rebuild (U V : TM) (hencky : TV) : TM :=
    mmul (mmul U (mdiag (vmap nexp hencky))) (mtr V).

  (** Kirchhoff stress, plasticity.cpp:20-28 and :694-704. *)
  Definition neo_tau (p : Par A) (F : TM) : TM :=
    let FiT := minv (mtr F) in
    mmul (madd (mlscale (mu p) (msub F FiT)) (mlscale (lambda p * nlog (mdet F)) FiT)) (mtr F).
  Definition principal_stress (p : Par A) (hencky : TV) : TV :=
    vadd (lscale (lambda p * vsum hencky) vones) (lscale (#2 * mu p) hencky).
  Definition hencky_tau (p : Par A) (U : TM) (hencky : TV) : TM :=
    mmul (mmul U (mdiag (principal_stress p hencky))) (mtr U).

  (** plasticity.cpp:10-715.  The incoming tau is always overwritten. *)
  Definition plasticity (p : Par A) (dt : A) (Fe : TM) (tau : TM) (h : Hist A) : res (PlOut A) :=
    let '(U, sigma, V) := svd Fe in
    let t := trial sigma in
    r <- return_map p dt t h ;;
    let F := match r_upd r with
             | Keep => Fe
             | Rebuild => rebuild U V (r_hencky r)
             | Rotation => mmul U (mtr V)
             end in
    let tau' := match elastic_model p with
                | NeoHookean => neo_tau p F
                | Hencky => hencky_tau p U (r_hencky r)
                end in
    Ok (mkPlOut F tau' (r_h r) (r_cnt r) (r_exit r)).
End Plastic.
Arguments Tr A {G}.
Arguments MR A {G}.
