*.vo
*.vok
*.vos
*.glob
.*.aux
.lia.cache
.nia.cache
.Makefile.d
Makefile
Makefile.conf
.nra.cache
.lia.cache
