(** Specification side: types of a fixed size on the wire. *)
From Verif Require Import Base Types.
Local Open Scope N_scope.

(** [fixed G t w]: every value of type [t] takes [w] bytes.  Scalars their width
    (usize 8), products the sum of their parts without skipped fields, enums two bytes
    and the payload if all payloads have the same size.  No option, string or
    collection. *)
Inductive fixed (G : env) : ty -> N -> Prop :=
| fx_int k : fixed G (TInt k) (N.of_nat (ik_bytes k))
| fx_f32 : fixed G TF32 4
| fx_f64 : fixed G TF64 8
| fx_bool : fixed G TBool 1
| fx_unit : fixed G TUnit 0
| fx_dur : fixed G TDur 12
| fx_box t w : fixed G t w -> fixed G (TBox t) w
| fx_proxy p t w : fixed G t w -> fixed G (TProxy p t) w
| fx_arr m t w : fixed G t w -> fixed G (TArr m t) (N.of_nat m * w)
| fx_tup ts w : fixed_all G ts w -> fixed G (TTup ts) w
| fx_struct i df cn fs w : nth_error G i = Some (DStruct df cn fs) ->
    fixed_all G (map f_ty (filter (fun f => negb (f_skip f)) fs)) w -> fixed G (TNamed i) w
| fx_tuple i tr fs w : nth_error G i = Some (DTuple tr fs) ->
    fixed_all G (map f_ty (filter (fun f => negb (f_skip f)) fs)) w -> fixed G (TNamed i) w
| fx_container i p t w : nth_error G i = Some (DProxy p t) -> fixed G t w -> fixed G (TNamed i) w
| fx_enum i vs w : nth_error G i = Some (DEnum vs) -> fixed_variants G (map v_body vs) w -> fixed G (TNamed i) (2 + w)
with fixed_all (G : env) : list ty -> N -> Prop :=
| fa_nil : fixed_all G [] 0
| fa_cons t ts w w' : fixed G t w -> fixed_all G ts w' -> fixed_all G (t :: ts) (w + w')
with fixed_variants (G : env) : list vbody -> N -> Prop :=
| fv_nil w : fixed_variants G [] w
| fv_unit bs : fixed_variants G bs 0 -> fixed_variants G (BUnit :: bs) 0
| fv_tuple ts bs w : fixed_all G ts w -> fixed_variants G bs w -> fixed_variants G (BTuple ts :: bs) w
| fv_struct fs bs w : fixed_all G (map f_ty fs) w -> fixed_variants G bs w -> fixed_variants G (BStruct fs :: bs) w.
