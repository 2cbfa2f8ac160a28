(** * A message made of parts *)
From Verif Require Import Schema Spec.
Import ListNotations.

(** The members of several structs, one after the other, as the members of one
    (include/api/struct_field_list.hpp:28-61). *)
Definition parts (fss : list fields) : fields := fold_right f_app FNil fss.
