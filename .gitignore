.lia.cache
.nia.cache
*.vo
*.vos
*.vok
*.glob
.*.aux
*.d
Makefile
Makefile.conf
.Makefile.d
.nra.cache
