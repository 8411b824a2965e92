#!/usr/bin/env python3
"""Write MANIFEST.json.  Each entry: property -> (status, theorem names, note)."""
import json,os
here=os.path.dirname(os.path.abspath(__file__))
C={}
def c(pid,status,thms,note=""): C[pid]=dict(property=pid,status=status,theorems=thms.split(),note=note)
c("C01","proved","new_ok new_panics vector_ok vector_panics row_vector_ok row_vector_panics observers constructed_wf")
c("C02","proved","get_ok access_panics set_ok get_set")
c("C03","proved","t_ok t_t")
c("C04","proved","mt_ok mt_is_t mt_empty_panics")
c("C05","proved","cr_ok cr_panics cb_ok cb_panics")
c("C06","proved","minor_ok minor_panics")
c("C07","partial","sub_matrix_block_partial sub_matrix_full_height_refuted sub_matrix_wraps_refuted sub_matrix_exact","the property is false of the code: the bounds check compares the block size, not the end positions; sub_matrix_exact describes every input")
c("C08","proved","get_column_ok get_column_panics")
c("C09","proved","permute_rows_ok permute_rows_panics permute_columns_ok permute_columns_panics permute_perm permute_inverse")
c("C10","proved","filter_rows_ok filter_columns_ok select_rows_ok select_columns_ok select_panics filter_nothing")
c("C11","proved","map_ok mmap_ok reduce_ok reduce_panics")
c("C12","proved","id_ok id_square constants_ok diag_ok block_diag_ok random_ok")
c("C13","proved","unary_ok binary_ok elem_div_ok elem_div_panics binary_panics inplace_agrees ring_ops_ok")
c("C14","proved","mul_eval mul_panics mul_ok")
exec(open(os.path.join(here,"manifest_more.py")).read()) if os.path.exists(os.path.join(here,"manifest_more.py")) else None
json.dump({"claims":[C[k] for k in sorted(C)]},open(os.path.join(here,"..","MANIFEST.json"),"w"),indent=1)
