(* Model of ns_physics.py 54-173: the relations of the Navier-Stokes physics object.  The
   conservative forms of pressure and temperature are in BCModel.v. *)
From Verif Require Import Base Expr BCModel.
From Coq Require Import QArith ZArith.
Local Close Scope Q_scope.

(* 67-78: the arrays of the block; one momentum and one velocity component per direction *)
Record nsphys := { nv_cons : nsvars; nv_p : expr; nv_T : expr; nv_a : expr; nv_vel : list expr }.

Definition rho_of (v : nsphys) : expr := ns_rho (nv_cons v).
(* E - 1/2 rho u.u in primitive variables *)
Definition internal_prim (v : nsphys) : expr :=
  esub (ns_rhoE (nv_cons v)) (emul [ENum (1 # 2); rho_of v; edot (nv_vel v)]).
(* 82 *)
Definition velocity_rel (v : nsphys) : list expr := map (fun m => ediv m (rho_of v)) (ns_mom (nv_cons v)).
(* 86 *)
Definition momentum_rel (v : nsphys) : list expr := map (fun u => emul [u; rho_of v]) (nv_vel v).
(* 93 *)
Definition sound_rel (v : nsphys) : expr := ediv (emul [gama; nv_p v]) (rho_of v).
(* 95 *)
Definition pressure_rel (v : nsphys) : expr := emul [esub gama (eint 1); internal_prim v].
(* 98-99 *)
Definition temperature_rel (v : nsphys) : expr :=
  ediv (emul [internal_prim v; emul [gama; esub gama (eint 1); epow Minf 2]]) (rho_of v).

(* 121-173: the accessors, called with relation and conservative *)
Inductive query := QDensity | QMomentum | QEnergy | QPressure | QSound | QVelocity | QTemperature | QViscosity.
Definition answer (v : nsphys) (q : query) (relation conservative : bool) : result (list expr) :=
  match q with
  | QDensity => Ok [rho_of v]
  | QMomentum => Ok (if relation then momentum_rel v else ns_mom (nv_cons v))
  | QEnergy => if relation then Err NotImplemented else Ok [ns_rhoE (nv_cons v)]
  | QPressure => Ok [if relation then (if conservative then pressure_cons (nv_cons v) else pressure_rel v) else nv_p v]
  | QSound => Ok [if relation then sound_rel v else nv_a v]
  | QVelocity => Ok (if relation then velocity_rel v else nv_vel v)
  | QTemperature => Ok [if relation then (if conservative then temperature_cons (nv_cons v) else temperature_rel v) else nv_T v]
  | QViscosity => if relation then Err NotImplemented else Ok (ns_mom (nv_cons v))    (* 169-173 *)
  end.
