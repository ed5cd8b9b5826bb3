*.vo
*.vok
*.vos
*.glob
*.aux
.*.aux
.lia.cache
.nra.cache
.Makefile.d
Makefile
Makefile.conf
.CoqMakefile.d
.nia.cache
.lia.cache
.nra.cache
